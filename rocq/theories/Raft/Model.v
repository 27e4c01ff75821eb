(* Model of the raft log storage: src/raft/my_raft_log_storage.cpp,
   include/raft/my_raft_log_storage.h, include/raft/index_term_map.h and
   include/raft/raft_log_compaction_filter.h.
   The two column families are ordered key-value stores keyed by bytes; a write
   batch is atomic.  Memory allocation failures, metrics, the concurrency limiter and
   the peer-add flag are not modelled. *)
From Verif.Common Require Export Bytes KV.
From Verif.Key Require Export Model.
Local Open Scope Z_scope.

(* ================= IndexTermMap (index_term_map.h) ================= *)

(* std::deque<LogId>, front first: (index, term) *)
Definition tmap := list (Z * Z).

(* std::upper_bound over a random-access range: first position whose index is > x *)
Fixpoint ub_loop (fuel : nat) (q : tmap) (x : Z) (lo len : nat) : nat :=
  match fuel with
  | O => lo
  | S fuel' =>
      match len with
      | O => lo
      | _ => let half := Nat.div2 len in
             if x <? fst (nth (lo + half) q (0, 0)) then ub_loop fuel' q x lo half
             else ub_loop fuel' q x (lo + half + 1) (len - half - 1)
      end
  end.
Definition upper_bound (q : tmap) (x : Z) : nat := ub_loop (length q) q x 0 (length q).

(* lines 48-53: reverse linear search over rbegin..rend *)
Fixpoint linear (rq : tmap) (index : Z) : Z :=
  match rq with
  | [] => 0
  | (i, t) :: rq' => if i <=? index then t else linear rq' index
  end.
(* index_term_map.h:39-65 *)
Definition tm_get_term (q : tmap) (index : Z) : Z :=
  match q with
  | [] => 0
  | _ => let back := last q (0, 0) in
         if fst back <=? index then snd back
         else if (length q <? 15)%nat then linear (rev q) index
         else match upper_bound q index with
              | O => 0
              | S p => snd (nth p q (0, 0))
              end
  end.
(* index_term_map.h:67-83; None = -1 *)
Definition tm_append (q : tmap) (i t : Z) : option tmap :=
  match q with
  | [] => Some [(i, t)]
  | _ => let back := last q (0, 0) in
         if (i <=? fst back) || (t <? snd back) then None
         else if negb (t =? snd back) then Some (q ++ [(i, t)]) else Some q
  end.
(* index_term_map.h:85-101 *)
Fixpoint num_pop (q : tmap) (k : Z) : nat :=
  match q with [] => O | (i, _) :: q' => if i <=? k then S (num_pop q' k) else O end.
Definition tm_truncate_prefix (q : tmap) (k : Z) : tmap :=
  match q with [] => [] | _ :: q' => skipn (num_pop q' k) q end.
(* index_term_map.h:103-107 *)
Fixpoint pop_back (rq : tmap) (k : Z) : tmap :=
  match rq with [] => [] | (i, t) :: rq' => if k <? i then pop_back rq' k else rq end.
Definition tm_truncate_suffix (q : tmap) (k : Z) : tmap := rev (pop_back (rev q) k).

(* ================= entries, keys and values ================= *)

(* braft::LogEntry: id.index, id.term, type with its content.  Peers are opaque. *)
Inductive payload :=
| PNoop
| PData (d : list Z)
| PConf (peers : list Z) (old : option (list Z))
| PUnknown (type : Z).
Record entry := mk_entry { e_index : Z; e_term : Z; e_pay : payload }.

(* Protobuf is not modelled: these four functions stand for serialising and parsing
   ConfigurationPBMeta, and for parsing a StoreReq (is it OP_PREWRITE_BINLOG, and its
   binlog_ts if the binlog_desc is present) and building the reduced StoreReq of
   lines 691-702. *)
Record codec := mk_codec {
  c_ser_conf : list Z -> list Z -> list Z;
  c_parse_conf : list Z -> option (list Z * list Z);
  c_req : list Z -> option (bool * option Z);
  c_shrink : list Z -> list Z
}.

(* braft's EntryType values (braft/enum.proto) *)
Definition ENTRY_TYPE_NO_OP := 1.
Definition ENTRY_TYPE_DATA := 2.
Definition ENTRY_TYPE_CONFIGURATION := 3.

(* my_raft_log_storage.cpp:801-818, 820-832 *)
Definition data_key (big : bool) (r i : Z) : list Z := app_i64 big r ++ [2] ++ app_i64 big i.
Definition meta_key (big : bool) (r : Z) : list Z := app_i64 big r ++ [1].
(* lines 834-849; None = -1 *)
Definition decode_data_key (big : bool) (k : list Z) : option (Z * Z) :=
  if (length k =? 17)%nat
  then Some (decode_i64 (to_endian_u64 big (mem_to big (firstn 8 k))),
             decode_i64 (to_endian_u64 big (mem_to big (firstn 8 (skipn 9 k)))))
  else None.
(* key in the binlog column family: lines 657-674, rocks_wrapper.cpp:642-646 *)
Definition binlog_key (big : bool) (ts : Z) : list Z := app_i64 big ts.

(* LogHead (my_raft_log_storage.h:40-53): RawPacker writes network byte order *)
Definition head_bytes (term type : Z) : list Z := be_bytes 8 term ++ be_bytes 4 type.
Definition head_term (v : list Z) : Z := to_signed 64 (be_val (firstn 8 v)).
Definition head_type (v : list Z) : Z := to_signed 32 (be_val (firstn 4 (skipn 8 v))).
Definition LOG_HEAD_SIZE := 12%nat.

(* lines 561-723: value in the raft log, and the record for the binlog column family *)
Definition build_value (c : codec) (binlog : bool) (big : bool) (e : entry) : option (list Z * option (list Z * list Z)) :=
  match e_pay e with
  | PData d =>
      if binlog then
        match c_req c d with
        | None => None
        | Some (false, _) => Some (head_bytes (e_term e) ENTRY_TYPE_DATA ++ d, None)
        | Some (true, ots) =>
            let ts := match ots with Some ts => ts | None => 0 end in
            Some (head_bytes (e_term e) ENTRY_TYPE_DATA ++ c_shrink c d, Some (binlog_key big ts, d))
        end
      else Some (head_bytes (e_term e) ENTRY_TYPE_DATA ++ d, None)
  | PConf p o =>
      Some (head_bytes (e_term e) ENTRY_TYPE_CONFIGURATION
            ++ c_ser_conf c p (match o with Some x => x | None => [] end), None)
  | PNoop => Some (head_bytes (e_term e) ENTRY_TYPE_NO_OP, None)
  | PUnknown _ => None
  end.

(* ================= storage and writes ================= *)

(* an atomic write to the store *)
Inductive write :=
| WPut (raft : list (list Z * list Z)) (binlog : list (list Z * list Z))
| WDel (keys : list (list Z))
| WDelFiles (a b : list Z) (dropped : list (list Z))   (* DeleteFilesInRange: some keys of [a,b) go *)
| WDelRange (a b : list Z).
Record disk := mk_disk { db : kv (list Z); bdb : kv (list Z) }.
Definition puts (l : list (list Z * list Z)) (s : kv (list Z)) : kv (list Z) :=
  fold_left (fun s kv => kput (fst kv) (snd kv) s) l s.
Definition mem_key (k : list Z) (l : list (list Z)) : bool := existsb (beqb k) l.
Definition do_write (d : disk) (w : write) : disk :=
  match w with
  | WPut a b => mk_disk (puts a (db d)) (puts b (bdb d))
  | WDel ks => mk_disk (kfilter (fun k => negb (mem_key k ks)) (db d)) (bdb d)
  | WDelFiles a b dr => mk_disk (kfilter (fun k => negb (bleb a k && bltb k b && mem_key k dr)) (db d)) (bdb d)
  | WDelRange a b => mk_disk (kdel_range a b (db d)) (bdb d)
  end.

(* an opened MyRaftLogStorage; m_confs: what init() put in the configuration manager *)
Record mem := mk_mem { m_first : Z; m_last : Z; m_tmap : tmap; m_confs : list entry }.

(* int64 stored through a char pointer *)
Definition int64_bytes (big : bool) (x : Z) : list Z := mem_of big 8 (to_unsigned 64 x).
Definition int64_of (big : bool) (s : list Z) : Z := to_signed 64 (mem_to big (firstn 8 s)).

(* lines 780-799 *)
Definition parse_meta (c : codec) (v : list Z) : option payload :=
  match c_parse_conf c v with
  | None => None
  | Some (p, o) => Some (PConf p (match o with [] => None | _ => Some o end))
  end.

(* lines 157-225: the scan; None = -1.  prefix_same_as_start with a 9-byte prefix
   extractor (rocks_wrapper.cpp:157-158) is modelled as: only keys with the 9-byte
   prefix of the start key are seen. *)
Fixpoint load (big : bool) (c : codec) (r : Z) (recs : kv (list Z)) (expected : Z) (q : tmap) (lst : Z) (confs : list entry)
  : option (tmap * Z * list entry) :=
  match recs with
  | [] => Some (q, lst, confs)
  | (k, v) :: recs' =>
      match decode_data_key big k with
      | None => None
      | Some (rid, index) =>
          if negb (rid =? r) then None
          else if negb (expected =? index) then None
          else if (length v <? LOG_HEAD_SIZE)%nat then None
          else match tm_append q index (head_term v) with
               | None => None
               | Some q' =>
                   if head_type v =? ENTRY_TYPE_CONFIGURATION then
                     match parse_meta c (skipn LOG_HEAD_SIZE v) with
                     | None => None
                     | Some p => load big c r recs' (expected + 1) q' index (confs ++ [mk_entry index (head_term v) p])
                     end
                   else load big c r recs' (expected + 1) q' index confs
               end
      end
  end.
Definition same_prefix (n : nat) (a b : list Z) : bool := beqb (firstn n a) (firstn n b).
(* lines 106-240; a new region first stores first index 1 *)
Definition init_storage (big : bool) (c : codec) (r : Z) (d : disk) : option (disk * mem) :=
  let '(d1, first) := match kget (meta_key big r) (db d) with
                      | None => (do_write d (WPut [(meta_key big r, int64_bytes big 1)] []), 1)
                      | Some s => (d, int64_of big s)
                      end in
  let start := data_key big r first in
  let recs := kfilter (same_prefix 9 start) (kseek start (db d1)) in
  match load big c r recs first [] 0 [] with
  | None => None
  | Some (q, lst, confs) =>
      Some (d1, mk_mem first (if lst =? 0 then first - 1 else lst) q confs)
  end.

(* lines 245-271 and 273-342 *)
Definition get_entry (big : bool) (c : codec) (binlog : bool) (d : disk) (r i : Z) : option entry :=
  match kget (data_key big r i) (db d) with
  | None => None
  | Some v =>
      if (length v <? LOG_HEAD_SIZE)%nat then None
      else let body := skipn LOG_HEAD_SIZE v in
           if head_type v =? ENTRY_TYPE_DATA then
             if binlog then
               match c_req c body with
               | None => None
               | Some (false, _) => Some (mk_entry i (head_term v) (PData body))
               | Some (true, None) => None
               | Some (true, Some ts) =>
                   match kget (binlog_key big ts) (bdb d) with
                   | Some b => Some (mk_entry i (head_term v) (PData b))
                   | None => None
                   end
               end
             else Some (mk_entry i (head_term v) (PData body))
           else if head_type v =? ENTRY_TYPE_CONFIGURATION then
             match parse_meta c body with Some p => Some (mk_entry i (head_term v) p) | None => None end
           else if head_type v =? ENTRY_TYPE_NO_OP then
             match body with [] => Some (mk_entry i (head_term v) PNoop) | _ => None end
           else None
  end.
(* lines 344-358 *)
Definition get_term (m : mem) (i : Z) : Z :=
  if (i <? m_first m) || (m_last m <? i) then 0 else tm_get_term (m_tmap m) i.

(* ---- operations: new memory state, the writes in order, return code ---- *)
Fixpoint build_all (c : codec) (binlog big : bool) (r : Z) (es : list entry)
  : option (list (list Z * list Z) * list (list Z * list Z)) :=
  match es with
  | [] => Some ([], [])
  | e :: es' =>
      match build_value c binlog big e, build_all c binlog big r es' with
      | Some (v, ob), Some (vs, bs) =>
          Some ((data_key big r (e_index e), v) :: vs, match ob with Some b => b :: bs | None => bs end)
      | _, _ => None
      end
  end.
Fixpoint tm_append_all (q : tmap) (es : list entry) : option tmap :=
  match es with
  | [] => Some q
  | e :: es' => match tm_append q (e_index e) (e_term e) with Some q' => tm_append_all q' es' | None => None end
  end.
(* the map as it is left by the loop at lines 435-441 when an append fails: the
   appended runs are truncated again *)
Fixpoint tm_append_some (q : tmap) (es : list entry) : tmap :=
  match es with
  | [] => q
  | e :: es' => match tm_append q (e_index e) (e_term e) with Some q' => tm_append_some q' es' | None => q end
  end.
(* lines 366-447 *)
Definition append_entries (big : bool) (c : codec) (binlog : bool) (r : Z) (m : mem) (es : list entry) : mem * list write * Z :=
  match es with
  | [] => (m, [], 0)
  | e :: _ =>
      if negb (m_last m + 1 =? e_index e) then (m, [], -1)
      else match build_all c binlog big r es with
           | None => (m, [], -1)
           | Some (vs, bs) =>
               match tm_append_all (m_tmap m) es with
               | None => (mk_mem (m_first m) (m_last m) (tm_truncate_suffix (tm_append_some (m_tmap m) es) (m_last m)) (m_confs m),
                          [WPut vs bs], -1)
               | Some q => (mk_mem (m_first m) (m_last m + Z.of_nat (length es)) q (m_confs m),
                            [WPut vs bs], Z.of_nat (length es))
               end
           end
  end.
(* lines 449-516; remove_range is DeleteFilesInRange then DeleteRange (rocks_wrapper.cpp:594-624) *)
Definition truncate_prefix (big : bool) (r : Z) (m : mem) (k : Z) (dropped : list (list Z)) : mem * list write * Z :=
  if k <=? m_first m then (m, [], 0)
  else if m_first m <? 0 then (m, [], 0)
  else (mk_mem k (if m_last m <? k then k - 1 else m_last m) (tm_truncate_prefix (m_tmap m) k) (m_confs m),
        [WPut [(meta_key big r, int64_bytes big k)] [];
         WDelFiles (data_key big r (m_first m)) (data_key big r k) dropped;
         WDelRange (data_key big r (m_first m)) (data_key big r k)], 0).
(* lines 518-549 *)
Fixpoint seqZ (a : Z) (n : nat) : list Z := match n with O => [] | S n' => a :: seqZ (a + 1) n' end.
Definition truncate_suffix (big : bool) (r : Z) (m : mem) (k : Z) : mem * list write * Z :=
  if m_last m <=? k then (m, [], 0)
  else (mk_mem (m_first m) k (tm_truncate_suffix (m_tmap m) k) (m_confs m),
        [WDel (map (data_key big r) (seqZ (k + 1) (Z.to_nat (m_last m - k))))], 0).
(* lines 551-559 *)
Definition reset (big : bool) (r : Z) (m : mem) (next : Z) (dropped : list (list Z)) : mem * list write * Z :=
  let '(m1, w1, _) := truncate_prefix big r m next dropped in
  let '(m2, w2, _) := truncate_suffix big r m1 (next - 1) in
  (mk_mem (m_first m2) (m_last m2) [] (m_confs m2), w1 ++ w2, 0).

(* raft_log_compaction_filter.h:40-64; fmap = _first_index_map, split = get_split_index *)
Definition filter_removes (big : bool) (fmap : Z -> option Z) (split : Z -> Z) (k : list Z) : bool :=
  match decode_data_key big k with
  | None => false
  | Some (r, i) =>
      match fmap r with
      | None => false
      | Some f => i <? (if f <? split r then f else split r)
      end
  end.

(* ================= a store process with many regions ================= *)
Inductive rop :=
| RAppend (es : list entry)
| RTruncPrefix (k : Z) (dropped : list (list Z))
| RTruncSuffix (k : Z)
| RReset (next : Z) (dropped : list (list Z)).
Definition do_rop (big : bool) (c : codec) (binlog : bool) (r : Z) (m : mem) (o : rop) : mem * list write * Z :=
  match o with
  | RAppend es => append_entries big c binlog r m es
  | RTruncPrefix k dr => truncate_prefix big r m k dr
  | RTruncSuffix k => truncate_suffix big r m k
  | RReset n dr => reset big r m n dr
  end.

Inductive label :=
| Open (r : Z)
| Do (r : Z) (o : rop)
| CrashDuring (r : Z) (o : rop) (n : nat)   (* the process stops after n writes of o *)
| Crash                                     (* the process stops *)
| Compact (dropped : list (list Z)) (split : Z -> Z).   (* a compaction offers these keys to the filter *)

Record sys := mk_sys { s_disk : disk; s_mem : Z -> option mem; s_fmap : Z -> option Z }.
Definition upd {A} (f : Z -> A) (k : Z) (v : A) : Z -> A := fun x => if x =? k then v else f x.
Definition do_writes (d : disk) (ws : list write) : disk := fold_left do_write ws d.

(* binlog r: region r was created with the binlog uri.  None: the region is not open,
   or opening it failed. *)
Definition step (big : bool) (c : codec) (binlog : Z -> bool) (s : sys) (l : label) : option sys :=
  match l with
  | Open r =>   (* new_instance (line 102: the filter's entry is 0 until init succeeds) and init *)
      match init_storage big c r (s_disk s) with
      | None => None
      | Some (d, m) => Some (mk_sys d (upd (s_mem s) r (Some m)) (upd (s_fmap s) r (Some (m_first m))))
      end
  | Do r o =>
      match s_mem s r with
      | None => None
      | Some m => let '(m', ws, _) := do_rop big c (binlog r) r m o in
                  Some (mk_sys (do_writes (s_disk s) ws) (upd (s_mem s) r (Some m')) (s_fmap s))
      end
  | CrashDuring r o n =>
      match s_mem s r with
      | None => None
      | Some m => let '(_, ws, _) := do_rop big c (binlog r) r m o in
                  Some (mk_sys (do_writes (s_disk s) (firstn n ws)) (fun _ => None) (fun _ => None))
      end
  | Crash => Some (mk_sys (s_disk s) (fun _ => None) (fun _ => None))
  | Compact dr split =>
      Some (mk_sys (mk_disk (kfilter (fun k => negb (mem_key k dr && filter_removes big (s_fmap s) split k)) (db (s_disk s)))
                            (bdb (s_disk s))) (s_mem s) (s_fmap s))
  end.
Fixpoint run (big : bool) (c : codec) (binlog : Z -> bool) (s : sys) (ls : list label) : option sys :=
  match ls with
  | [] => Some s
  | l :: ls' => match step big c binlog s l with Some s' => run big c binlog s' ls' | None => None end
  end.
Definition init_sys : sys := mk_sys (mk_disk [] []) (fun _ => None) (fun _ => None).
