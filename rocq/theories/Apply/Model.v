(** * Applying the replicated log on a store, stopping and restarting

    Sources modelled (all under /repo):
    - src/store/region.cpp 3499-3560 (do_apply: entries up to the applied index are skipped)
    - src/store/region.cpp 3930-4116 (a statement of a transaction: apply_kv_in_txn)
    - src/store/region.cpp 4119-4304 (a write outside transactions: apply_kv_out_txn)
    - src/store/region.cpp 4306-4470 (statements, PREPARE, COMMIT, ROLLBACK: apply_txn_request)
    - src/store/region.cpp 522-590   (plans carried by a request: execute_cached_cmd)
    - src/store/region.cpp 1961-2290 (dml_2pc), 2301-2590 (dml_1pc)
    - src/store/region.cpp 5196-5294 (on_snapshot_load_for_restart), 5296-5535 (on_snapshot_load)
    - src/store/store.cpp 226-243    (prepared transactions at start)
    - src/store/meta_writer.cpp 100-310 (the records kept beside the data)
    - src/raft/log_entry_reader.cpp 45-109 (entries of open transactions)
    - src/engine/transaction.cpp 1450-1510 (prepare, commit, rollback)

    Granularity and simplifications
    - Each write to rocksdb (one put, one batch, one Prepare, Commit or Rollback of a
      rocksdb transaction) is atomic and durable in the order issued.  A store may stop
      between any two of them.
    - The region is a follower, or a leader that restarted: what a leader runs before the
      entry is replicated only changes its memory.
    - A statement's writes are an opaque value; as in KV mode they do not depend on the
      data they meet.  That they all succeed on a replica is assumed.
    - Local restart only (no snapshot is installed from another peer).
    - Not modelled: splits, PARTIAL_ROLLBACK as an entry of its own, binlog regions,
      column storage, flag force_clear_txn_for_fast_recovery (which drops every open
      transaction). *)

From Coq Require Import List Arith ZArith Lia Bool.
Import ListNotations.

Section Model.
Context {W : Type}.

(** ** The log *)

(** One data statement of a transaction: its sequence number, what it writes, and the
    row count delta shipped with it (StoreReq.num_increase_rows). *)
Record stmt := mkStmt { s_seq : nat; s_w : W; s_rows : Z }.

(** pb::StoreReq in the raft log, by op_type.  [beg]: the request carries the cached BEGIN
    plan (fetcher_store.cpp 226-262: every request but COMMIT does).  [bad]:
    need_rollback_seq.  [one]: optimize_1pc.  [prim]: Transaction::need_write_rollback
    (include/engine/transaction.h 550-555) holds for this transaction. *)
Inductive entry :=
| EOut (w : W) (rows : Z)
| EAdmin
| EStmt (t : nat) (beg : bool) (bad : list nat) (s : stmt)
| EPrep (t : nat) (beg : bool) (bad : list nat) (seq : nat) (cached : list stmt) (one : bool)
| ECommit (t : nat) (seq : nat)
| ERoll (t : nat) (beg : bool) (seq : nat) (prim : bool).

(** StoreReq.txn_infos(0).txn_id. *)
Definition txn_of (e : entry) : option nat :=
  match e with
  | EOut _ _ | EAdmin => None
  | EStmt t _ _ _ | EPrep t _ _ _ _ _ | ECommit t _ | ERoll t _ _ _ => Some t
  end.

(** Raft log positions start at 1. *)
Definition entry_at (log : list entry) (i : nat) : option entry :=
  match i with 0 => None | S k => nth_error log k end.

(** ** What survives a stop *)

(** The store's rocksdb, for one region: the committed batches in order; the records
    num_table_lines_key, applied_index_key, pre_commit_key(txn), transcation_log_index_key(txn)
    and rollbacked_transcation_key(txn) of meta_writer.cpp; and the rocksdb transactions that
    are prepared and neither committed nor rolled back. *)
Record disk := mkDisk {
  d_data : list (list W);
  d_lines : Z;
  d_idx : nat;
  d_pre : list (nat * (Z * nat));
  d_log : list (nat * nat);
  d_prep : list (nat * list W);
  d_tag : list nat }.

Definition blank : disk := mkDisk [] 0%Z 0 [] [] [] [].

Fixpoint lookup {A} (k : nat) (l : list (nat * A)) : option A :=
  match l with
  | [] => None
  | (x, a) :: r => if x =? k then Some a else lookup k r
  end.
Definition remove {A} (k : nat) (l : list (nat * A)) : list (nat * A) :=
  filter (fun p => negb (fst p =? k)) l.
Definition store {A} (k : nat) (a : A) (l : list (nat * A)) : list (nat * A) :=
  (k, a) :: remove k l.

(** The atomic writes.
    [WOut]: commit of the rocksdb transaction of apply_kv_out_txn, into which
      write_meta_index_and_num_table_lines (meta_writer.cpp 299-308) put the records.
    [WIdx]: update_apply_index.
    [WBegin]: write_meta_begin_index (273-297).
    [WPrepare], [WCommit], [WRollback]: rocksdb Prepare, Commit, Rollback.
    [WPre]: write_pre_commit.   [WAfter]: write_meta_after_commit (238-253).
    [WClear]: clear_error_pre_commit (255-260). *)
Inductive dwrite :=
| WOut (w : W) (lines : Z) (i : nat)
| WIdx (i : nat)
| WBegin (t i : nat)
| WPrepare (t : nat) (ws : list W)
| WPre (t : nat) (lines : Z) (i : nat)
| WCommit (t : nat) (ws : list W)
| WRollback (t : nat)
| WAfter (t : nat) (lines : Z) (i : nat) (tag : bool)
| WClear (t : nat).

Definition write (d : disk) (x : dwrite) : disk :=
  match x with
  | WOut w n i => mkDisk (d_data d ++ [[w]]) n i (d_pre d) (d_log d) (d_prep d) (d_tag d)
  | WIdx i => mkDisk (d_data d) (d_lines d) i (d_pre d) (d_log d) (d_prep d) (d_tag d)
  | WBegin t i =>
      mkDisk (d_data d) (d_lines d) i (d_pre d) (store t i (d_log d)) (d_prep d) (d_tag d)
  | WPrepare t ws =>
      mkDisk (d_data d) (d_lines d) (d_idx d) (d_pre d) (d_log d) (store t ws (d_prep d)) (d_tag d)
  | WPre t n i =>
      mkDisk (d_data d) (d_lines d) (d_idx d) (store t (n, i) (d_pre d)) (d_log d) (d_prep d) (d_tag d)
  | WCommit t ws =>
      mkDisk (d_data d ++ [ws]) (d_lines d) (d_idx d) (d_pre d) (d_log d) (remove t (d_prep d)) (d_tag d)
  | WRollback t =>
      mkDisk (d_data d) (d_lines d) (d_idx d) (d_pre d) (d_log d) (remove t (d_prep d)) (d_tag d)
  | WAfter t n i tag =>
      mkDisk (d_data d) n i (remove t (d_pre d)) (remove t (d_log d)) (d_prep d)
             (if tag then t :: d_tag d else d_tag d)
  | WClear t =>
      mkDisk (d_data d) (d_lines d) (d_idx d) (remove t (d_pre d)) (remove t (d_log d))
             (d_prep d) (d_tag d)
  end.

Definition writes (d : disk) (l : list dwrite) : disk := fold_left write l d.

(** ** What a stop loses *)

(** class Transaction in the pool: seq_id(), the statements whose writes it holds (one save
    point each), _is_prepared.  Its write_begin_index() is true exactly between BEGIN and the
    end of the entry that brought it, so it needs no field. *)
Record ptxn := mkP { p_seq : nat; p_stmts : list stmt; p_prep : bool }.

(** _applied_index, _num_table_lines, _txn_pool of class Region. *)
Record mem := mkMem { m_idx : nat; m_lines : Z; m_pool : nat -> option ptxn }.

Definition upd {A} (f : nat -> A) (k : nat) (a : A) : nat -> A :=
  fun x => if x =? k then a else f x.

Definition mem_nat (x : nat) (l : list nat) : bool := existsb (Nat.eqb x) l.

(** Transaction::rollback_to_point for each number of need_rollback_seq, highest first: it
    pops the last save point when that is the statement (transaction.cpp; see C35). *)
Fixpoint drop_bad (bad : list nat) (l : list stmt) : list stmt :=
  match l with
  | [] => []
  | s :: r => if mem_nat (s_seq s) bad then drop_bad bad r else l
  end.
Definition undo (bad : list nat) (l : list stmt) : list stmt := rev (drop_bad bad (rev l)).

(** begin_txn (transaction_pool.cpp 59-103) by the carried BEGIN plan, when the pool has no
    such transaction. *)
Definition begin (o : option ptxn) (beg : bool) : option ptxn :=
  match o with
  | Some p => Some p
  | None => if beg then Some (mkP 1 [] false) else None
  end.

(** One data statement (region.cpp 4011-4090; dml_2pc 2011-2040): undo what was given up; a
    statement given up itself only moves seq_id. *)
Definition run_stmt (bad : list nat) (p : ptxn) (s : stmt) : ptxn :=
  let l := undo bad (p_stmts p) in
  mkP (s_seq s) (if mem_nat (s_seq s) bad then l else l ++ [s]) (p_prep p).

(** execute_cached_cmd (region.cpp 522-590): the carried plans above [last]. *)
Definition run_cached (bad : list nat) (last : nat) (l : list stmt) (p : ptxn) : ptxn :=
  fold_left (fun p s => if s_seq s <=? last then p else run_stmt bad p s) l p.

Definition p_writes (p : ptxn) : list W := map s_w (p_stmts p).
Definition p_rows (p : ptxn) : Z := fold_right Z.add 0%Z (map s_rows (p_stmts p)).
Definition seq_of (o : option ptxn) : nat := match o with Some p => p_seq p | None => 0 end.

(** write_meta_begin_index is due when this entry brought the transaction into the pool
    (region.cpp 3980-4000, 4360-4378). *)
Definition begin_writes (o : option ptxn) (t i : nat) : list dwrite :=
  match o with None => [WBegin t i] | Some _ => [] end.

(** region.cpp 4087-4091: rows come with the request unless the entry is replayed at start
    (term 0), when they are left at 0. *)
Definition shipped (replay : bool) (s : stmt) : stmt :=
  if replay then mkStmt (s_seq s) (s_w s) 0%Z else s.

(** One entry of transaction [t] on the pool's [o]: the writes it makes in order, what the
    pool then holds, and _num_table_lines. *)
Definition exec_txn (replay : bool) (i : nat) (n : Z) (e : entry) (o : option ptxn)
  : list dwrite * option ptxn * Z :=
  match e with
  | EOut _ _ | EAdmin => ([], o, n)
  | EStmt t beg bad s =>
      (* apply_kv_in_txn 3930-4116 *)
      match begin o beg with
      | None => ([], o, n)
      | Some p =>
          (begin_writes o t i,
           Some (if s_seq s <=? seq_of o then p else run_stmt bad p (shipped replay s)), n)
      end
  | EPrep t beg bad seq cached one =>
      (* apply_txn_request 4306-4470, then dml_2pc or dml_1pc *)
      match (if seq_of o <? seq - 1
             then option_map (run_cached bad (seq_of o) cached) (begin o beg) else o) with
      | None => ([], o, n)
      | Some p =>
          if seq <=? seq_of o then (begin_writes o t i, Some p, n)
          else
            let p' := mkP seq (undo bad (p_stmts p)) true in
            let prepare := if p_prep p then [] else [WPrepare t (p_writes p')] in
            if one then
              (* dml_1pc 2301-2590: write_pre_commit, commit, write_meta_after_commit *)
              (begin_writes o t i ++ prepare ++
               [WPre t (n + p_rows p') i; WCommit t (p_writes p'); WAfter t (n + p_rows p') i false],
               None, (n + p_rows p')%Z)
            else (begin_writes o t i ++ prepare, Some p', n)
      end
  | ECommit t seq =>
      match o with
      | None => ([], None, n)          (* 4381-4394: finished before, nothing to do *)
      | Some p =>
          if seq <=? p_seq p then ([], Some p, n)
          else if p_prep p then
            ([WPre t (n + p_rows p) i; WCommit t (p_writes p); WAfter t (n + p_rows p) i false],
             None, (n + p_rows p)%Z)
          else
            (* transaction.cpp 1479-1482: commit of an unprepared transaction is refused, and
               remove_txn drops it *)
            ([WPre t (n + p_rows p) i; WAfter t n i false], None, n)
      end
  | ERoll t beg seq prim =>
      match (if seq_of o <? seq - 1 then begin o beg else o) with
      | None => ([], o, n)
      | Some p =>
          if seq <=? seq_of o then (begin_writes o t i, Some p, n)
          else
            (begin_writes o t i ++ [WPre t n i] ++
             (if p_prep p then [WRollback t] else []) ++ [WAfter t n i prim],
             None, n)
      end
  end.

(** do_apply for one entry the applied index does not cover (region.cpp 3506-3827). *)
Definition apply_entry (replay : bool) (i : nat) (e : entry) (m : mem) : list dwrite * mem :=
  match e with
  | EOut w rows =>
      ([WOut w (m_lines m + rows) i], mkMem i (m_lines m + rows) (m_pool m))
  | EAdmin => ([WIdx i], mkMem i (m_lines m) (m_pool m))
  | _ =>
      match txn_of e with
      | None => ([], m)
      | Some t =>
          let '(ws, o, n) := exec_txn replay i (m_lines m) e (m_pool m t) in
          (ws, mkMem i n (upd (m_pool m) t o))
      end
  end.

(** ** Restart *)

(** One transaction of parse_txn_log_indexs (region.cpp 5222-5279), given the transactions
    rocksdb held prepared: either its end is completed or cleared ([fst]: the writes, and the
    new applied index), or its entries are to be replayed ([snd] = true). *)
Definition settle (log : list entry) (first : nat) (prepared : list nat) (d : disk)
    (idx t : nat) : list dwrite * nat * bool :=
  match lookup t (d_pre d) with
  | Some (n, i) =>
      if mem_nat t prepared then ([], idx, true)
      else if i <? idx then ([WClear t], idx, false)
      else
        match (if first <=? i then entry_at log i else None) with
        | Some (ECommit _ _) => ([WAfter t n i false; WClear t], max idx i, false)
        | Some (ERoll _ _ _ _) => ([WAfter t n i true; WClear t], max idx i, false)
        | _ => ([WClear t], idx, false)
        end
  | None => ([], idx, true)
  end.

(** The loop over all of them: writes, applied index, transactions to replay. *)
Fixpoint settle_all (log : list entry) (first : nat) (prepared : list nat) (d : disk)
    (idx : nat) (l : list (nat * nat)) : list dwrite * nat * list (nat * nat) :=
  match l with
  | [] => ([], idx, [])
  | (t, f) :: r =>
      let '(ws, idx', keep) := settle log first prepared d idx t in
      let '(ws', idx'', open) := settle_all log first prepared d idx' r in
      (ws ++ ws', idx'', if keep then (t, f) :: open else open)
  end.

(** read_log_entry (log_entry_reader.cpp 45-109): the kept entries from [lo] to [hi] that
    belong to one of the transactions. *)
Definition wanted (log : list entry) (open : list nat) (i : nat) : list (nat * entry) :=
  match entry_at log i with
  | Some e => match txn_of e with
              | Some t => if mem_nat t open then [(i, e)] else []
              | None => []
              end
  | None => []
  end.
Definition entries_of (log : list entry) (open : list nat) (lo hi : nat) : list (nat * entry) :=
  flat_map (wanted log open) (seq lo (S hi - lo)).

(** Replaying them (region.cpp 5499-5517). *)
Fixpoint replay (l : list (nat * entry)) (m : mem) : list dwrite * mem :=
  match l with
  | [] => ([], m)
  | (i, e) :: r =>
      let '(ws, m1) := apply_entry true i e m in
      let '(ws', m2) := replay r (mkMem (m_idx m) (m_lines m1) (m_pool m1)) in
      (ws ++ ws', m2)
  end.

Definition low (open : list (nat * nat)) (hi : nat) : nat :=
  fold_right (fun p a => min (snd p) a) hi open.

(** Everything a restart writes, and the memory it ends with.  [snap]: index of the newest
    raft snapshot; [first]: first entry the raft log still holds. *)
Definition boot (log : list entry) (snap first : nat) (d : disk) : list dwrite * mem :=
  let prepared := map fst (d_prep d) in
  let w0 := map WRollback prepared in                              (* store.cpp 226-243 *)
  let d0 := writes d w0 in
  let '(w1, idx, open) := settle_all log first prepared d0 (d_idx d0) (d_log d0) in
  let d1 := writes d0 w1 in
  let hi := max snap idx in
  let ids := map fst open in
  let es := match ids with
            | [] => []
            | _ => if hi <? low open (S hi) then []
                   else entries_of log ids (max first (low open (S hi))) hi
            end in
  (* region.cpp 5430-5460: both are read again from the records *)
  let '(w2, m2) := replay es (mkMem (d_idx d1) (d_lines d1) (fun _ => None)) in
  let w3 := match es with [] => [] | _ => [WIdx (d_idx d1)] end in
  (w0 ++ w1 ++ w2 ++ w3, m2).

(** ** Executions *)

(** A store that runs: its records, its memory, and how many entries raft handed to it (it
    starts again after the snapshot).  Or a store that stopped. *)
Inductive node :=
| Up (d : disk) (m : mem) (pos : nat)
| Down (d : disk) (pos : nat).

(** [Deliver]: raft hands over the next entry.  [Stop k]: it does, and the store stops after
    the first [k] writes of it.  [Start snap first]: restart, from a snapshot taken at [snap],
    with the log kept from [first].  [StopStart snap first k]: it stops again after [k] writes
    of the restart. *)
Inductive event :=
| Deliver
| Stop (k : nat)
| Start (snap first : nat)
| StopStart (snap first k : nat).

(** do_apply 3506-3512: an entry up to the applied index is skipped. *)
Definition handle (log : list entry) (m : mem) (pos : nat) : list dwrite * mem :=
  match entry_at log (S pos) with
  | None => ([], m)
  | Some e => if S pos <=? m_idx m then ([], m) else apply_entry false (S pos) e m
  end.

Definition step (log : list entry) (x : node) (v : event) : option node :=
  match x, v with
  | Up d m pos, Deliver =>
      match entry_at log (S pos) with
      | None => None
      | Some _ => let '(ws, m') := handle log m pos in Some (Up (writes d ws) m' (S pos))
      end
  | Up d m pos, Stop k => Some (Down (writes d (firstn k (fst (handle log m pos)))) pos)
  | Down d pos, Start snap first =>
      if snap <=? pos then
        let '(ws, m) := boot log snap first d in Some (Up (writes d ws) m snap)
      else None
  | Down d pos, StopStart snap first k =>
      if snap <=? pos then Some (Down (writes d (firstn k (fst (boot log snap first d)))) pos)
      else None
  | _, _ => None
  end.

Fixpoint run (log : list entry) (x : node) (l : list event) : option node :=
  match l with
  | [] => Some x
  | v :: r => match step log x v with Some y => run log y r | None => None end
  end.

Definition fresh : node := Up blank (mkMem 0 0%Z (fun _ => None)) 0.

(** The execution without any stop. *)
Definition straight (log : list entry) : option node := run log fresh (repeat Deliver (length log)).

Definition disk_of (x : node) : disk := match x with Up d _ _ => d | Down d _ => d end.

End Model.
Arguments stmt : clear implicits.
Arguments entry : clear implicits.
Arguments disk : clear implicits.
Arguments dwrite : clear implicits.
Arguments ptxn : clear implicits.
Arguments mem : clear implicits.
Arguments node : clear implicits.
