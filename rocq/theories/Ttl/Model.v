(* Model of row expiry: the expiry in front of a stored value (include/engine/transaction.h:39-53,
   src/engine/transaction.cpp:41-135, 580-603), its use by readers (transaction.cpp:745-760,
   846-860, 1175-1190, src/engine/table_iterator.cpp:447-475, 599-622), turning TTL on for an
   existing table (src/store/region.cpp:8501-8581) and the expiry that statements write
   (src/exec/dml_node.cpp:65-68, 254, 263-327, 707-784).

   RocksDB is an association list.  A transaction sees it as it is; locks, regions and the
   column store are not modelled.  Bytes are those of Key/Model.v, [big] is the host's byte
   order. *)
From Verif Require Import Common.Bytes Key.Model Split.Model Ttl.Spec.
Local Open Scope Z_scope.

(* ---- TupleRecord (include/common/tuple_record.h:37-76, src/common/tuple_record.cpp:37-85) ---- *)

(* get_varint<uint64_t>: the value and the number of bytes read; None: a shift by 64 or more.
   The groups have disjoint bits, so |= is written as a sum. *)
Fixpoint get_varint (s : list Z) (pos raw : Z) : option (Z * Z) :=
  match s with
  | [] => Some (raw, 0)
  | b :: s' =>
      if 64 <=? pos then None
      else let raw' := (raw + (b mod 128) * 2 ^ pos) mod 2 ^ 64 in
           if b <? 128 then Some (raw', 1)
           else match get_varint s' (pos + 7) raw' with
                | Some (r, n) => Some (r, n + 1)
                | None => None
                end
  end.

(* skip_varint: the number of bytes *)
Fixpoint skip_varint (s : list Z) : Z :=
  match s with [] => 0 | b :: s' => if b <? 128 then 1 else 1 + skip_varint s' end.

Inductive verdict := VOk | VBad | VUndef | VHang.

(* verification_fields.  The offset is a size_t and wraps.  The loop's only state is the offset,
   so a run that has made more rounds than there are offsets never ends: VHang. *)
Fixpoint verify_loop (fuel : nat) (data : list Z) (max off : Z) : verdict :=
  match fuel with
  | O => VHang
  | S fuel' =>
      let size := Z.of_nat (length data) in
      if off <? size then
        match get_varint (skipn (Z.to_nat off) data) 0 0 with
        | None => VUndef
        | Some (key, n) =>
            let o := off + n in
            let num := key / 8 in
            if size <=? o then VBad
            else if (max <? num) || (num =? 0) then VBad
            else match key mod 8 with
                 | 0 => verify_loop fuel' data max (o + skip_varint (skipn (Z.to_nat o) data))
                 | 1 => verify_loop fuel' data max (o + 8)
                 | 2 => match get_varint (skipn (Z.to_nat o) data) 0 0 with
                        | None => VUndef
                        | Some (len, m) => verify_loop fuel' data max ((o + m + len) mod 2 ^ 64)
                        end
                 | 5 => verify_loop fuel' data max (o + 4)
                 | _ => VBad
                 end
        end
      else if size <? off then VBad else VOk
  end.
Definition verification_fields (data : list Z) (max : Z) : verdict :=
  verify_loop (S (S (length data))) data max 0.

(* ---- ttl_decode ---- *)

(* Dec: what is left of the value, and the time *)
Inductive decoded := Dec (v : list Z) (time : Z) | DUndef | DHang.

(* ttl_decode (transaction.cpp:41-135); [max]: index_info->max_field_id.  The checks of a unique
   index that only log (108-125) are left out. *)
Definition ttl_decode (big : bool) (max : Z) (t : kind) (base : Z) (value : list Z) : decoded :=
  if base =? 0 then
    match extract_i64 big value 0 with
    | None => DUndef
    | Some time => Dec (skipn 8 value) time
    end
  else if (length value <? 8)%nat then Dec value base
  else match extract_i64 big value 0 with
       | None => DUndef
       | Some time =>
           if negb (valid_timestamp_us time) then Dec value base
           else match t with
                | NonUnique => if (length value =? 8)%nat then Dec (skipn 8 value) time else Dec value time
                | Primary =>
                    match verification_fields value max with
                    | VUndef => DUndef
                    | VHang => DHang
                    | VBad => Dec (skipn 8 value) time
                    | VOk =>
                        match verification_fields (skipn 8 value) max with
                        | VUndef => DUndef
                        | VHang => DHang
                        | VBad => Dec value base
                        | VOk => Dec (skipn 8 value) time
                        end
                    end
                | Unique => Dec (skipn 8 value) time
                end
       end.

(* ---- the region ---- *)

Record region := {
  rg_use : bool;                    (* _use_normal_ttl *)
  rg_base : Z;                      (* _online_ttl_base_expire_time_us *)
  rg_kv : list (ekey * list Z)
}.

(* put_kv_without_lock (transaction.cpp:580-603) *)
Definition put_kv (big : bool) (g : region) (k : ekey) (v : list Z) (ttl_timestamp_us : Z) : region :=
  {| rg_use := rg_use g; rg_base := rg_base g;
     rg_kv := set (rg_kv g) k (stored_value big (rg_use g) ttl_timestamp_us v) |}.

(* delete_kv (transaction.cpp:625-633) *)
Definition delete_kv (g : region) (k : ekey) : region :=
  {| rg_use := rg_use g; rg_base := rg_base g; rg_kv := unset (rg_kv g) k |}.

(* Region::update_ttl_info without a TTL column (region.cpp:8501-8581): the kind of TTL is set
   once; meta sends a base time only when it turns TTL on (meta_server/table_manager.cpp:2488-2502) *)
Definition update_ttl_info (g : region) (base : Z) : region :=
  if rg_use g then g else {| rg_use := true; rg_base := base; rg_kv := rg_kv g |}.

Definition apply (big : bool) (g : region) (o : op) : region :=
  match o with
  | Write k v e => put_kv big g k v e
  | Remove k => delete_kv g k
  | Turn_on base => update_ttl_info g base
  end.

(* Return values of get_update_primary and get_update_secondary (transaction.cpp:686-806,
   1120-1215): 0 with the value and ttl_ts, -2, -4; the transaction reads at
   [read_ts] = _read_ttl_timestamp_us, set by begin (188-197).  Modes GET_ONLY and GET_LOCK. *)
Inductive got := NotFound | Expired | Row (v : list Z) (ttl_ts : Z) | Undefined | Hangs.

Definition get_update (big : bool) (max : Z) (g : region) (read_ts : Z) (k : ekey) : got :=
  match find (rg_kv g) k with
  | None => NotFound
  | Some sv =>
      if rg_use g && (0 <? read_ts) then
        match ttl_decode big max (fst k) (rg_base g) sv with
        | Dec v time => if time <? read_ts then Expired else Row v time
        | DUndef => Undefined
        | DHang => Hangs
        end
      else Row sv 0
  end.

(* TableIterator and IndexIterator::get_next over the selected keys (table_iterator.cpp:447-475,
   599-622): expired entries are passed over *)
Inductive scanned := Rows (l : list (ekey * list Z)) | ScanUndef | ScanHang.
Fixpoint scan (big : bool) (max : Z) (use : bool) (base read_ts : Z) (sel : ekey -> bool)
  (m : list (ekey * list Z)) : scanned :=
  match m with
  | [] => Rows []
  | (k, sv) :: m' =>
      if sel k then
        match (if use then ttl_decode big max (fst k) base sv else Dec sv read_ts) with
        | Dec v time =>
            if use && (time <? read_ts) then scan big max use base read_ts sel m'
            else match scan big max use base read_ts sel m' with
                 | Rows l => Rows ((k, v) :: l)
                 | x => x
                 end
        | DUndef => ScanUndef
        | DHang => ScanHang
        end
      else scan big max use base read_ts sel m'
  end.

(* ---- statements ---- *)

(* DMLNode::init_schema_info (dml_node.cpp:65-68) without a TTL column; None: the int64 overflows *)
Definition init_ttl_timestamp (now row_ttl_duration table_ttl_duration : Z) : option Z :=
  let ttl_duration := if 0 <? row_ttl_duration then row_ttl_duration else table_ttl_duration in
  if 0 <? ttl_duration then
    (let t := now + ttl_duration * 1000 * 1000 in
     if t <? 2 ^ 63 then Some t else None)
  else Some 0.

(* the node while it runs: the region and the member _ttl_timestamp_us *)
Inductive dml := Run (g : region) (ts : Z) | Fails | DmlUndef | DmlHang.

(* update_row (dml_node.cpp:707-784); [f] makes the new value from the old one *)
Definition update_row (big : bool) (max read_ts row_ttl_duration : Z) (f : list Z -> list Z)
  (g : region) (ts : Z) (k : ekey) : dml :=
  match get_update big max g read_ts k with
  | Row v ttl_ts =>
      let ts' := if (row_ttl_duration =? -1) && (0 <? ts) && (0 <? ttl_ts) then ttl_ts else ts in
      Run (put_kv big g k (f v) ts') ts'
  | NotFound | Expired => Run g ts
  | Undefined => DmlUndef
  | Hangs => DmlHang
  end.

(* insert_row (dml_node.cpp:254, 263-327), for the primary key *)
Definition insert_row (big : bool) (max read_ts row_ttl_duration : Z) (mode : on_duplicate)
  (g : region) (ts : Z) (r : ekey * list Z) : dml :=
  match get_update big max g read_ts (fst r) with
  | Row _ _ =>
      match mode with
      | Dup_error => Fails
      | Dup_ignore => Run g ts
      | Dup_update f => update_row big max read_ts row_ttl_duration f g ts (fst r)
      | Dup_replace => Run (put_kv big g (fst r) (snd r) ts) ts
      end
  | NotFound | Expired => Run (put_kv big g (fst r) (snd r) ts) ts
  | Undefined => DmlUndef
  | Hangs => DmlHang
  end.

(* the loops of InsertNode::open and UpdateNode::open (insert_node.cpp, update_node.cpp) *)
Fixpoint dml_loop {A} (one : region -> Z -> A -> dml) (rows : list A) (g : region) (ts : Z) : dml :=
  match rows with
  | [] => Run g ts
  | r :: rows' => match one g ts r with Run g' ts' => dml_loop one rows' g' ts' | x => x end
  end.

Definition exec_statement (big : bool) (max read_ts now row_ttl_duration table_ttl_duration : Z)
  (s : statement) (g : region) : dml :=
  match init_ttl_timestamp now row_ttl_duration table_ttl_duration with
  | None => DmlUndef
  | Some ts =>
      match s with
      | Update keys f => dml_loop (update_row big max read_ts row_ttl_duration f) keys g ts
      | Insert rows mode => dml_loop (insert_row big max read_ts row_ttl_duration mode) rows g ts
      end
  end.
