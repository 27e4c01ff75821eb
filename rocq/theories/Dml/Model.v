(* INSERT, REPLACE, INSERT IGNORE, INSERT .. ON DUPLICATE KEY UPDATE, UPDATE and DELETE as
   one region of a table executes them: src/exec/dml_node.cpp, insert_node.cpp,
   update_node.cpp, delete_node.cpp, on top of get_update_primary, get_update_secondary,
   put_primary, put_secondary and remove of src/engine/transaction.cpp.

   Not modelled: full-text, vector and rollup indexes, global indexes (LOCK_PRIMARY_NODE),
   binlog, MERGE inserts, the flag replace_no_get, a lock that cannot be taken (the
   statement then fails) and the encoding of keys (theories/Key: a key is here the tuple of
   its cells; the encoding is one to one). *)
From Coq Require Export List Bool ZArith Lia Arith.
Export ListNotations.
Local Open Scope Z_scope.

(* ---------------- values, records ---------------- *)
(* a column value: NULL, or the bytes it is encoded to *)
Definition cell := option (list Z).
Definition cell_dec (a b : cell) : {a = b} + {a <> b}.
Proof. decide equality. apply (list_eq_dec Z.eq_dec). Defined.
Definition cells_dec : forall a b : list cell, {a = b} + {a <> b} := list_eq_dec cell_dec.

(* TableRecord: a protobuf message, one optional field per column; a field that is not set
   is NULL (table_record.h) *)
Definition rec := list cell.
Definition fget (r : rec) (f : nat) : cell := nth f r None.
(* set_value / clear_field *)
Fixpoint fset (r : rec) (f : nat) (c : cell) : rec :=
  match r, f with
  | [], _ => []
  | _ :: t, O => c :: t
  | h :: t, S f' => h :: fset t f' c
  end.
Definition proj (r : rec) (fs : list nat) : list cell := map (fget r) fs.
Fixpoint set_all (r : rec) (fs : list nat) (cs : list cell) : rec :=
  match fs, cs with
  | f :: fs', c :: cs' => set_all (fset r f c) fs' cs'
  | _, _ => r
  end.
Definition memb (f : nat) (l : list nat) : bool := existsb (Nat.eqb f) l.
Definition isnull (c : cell) : bool := match c with None => true | Some _ => false end.

(* ---------------- schema ---------------- *)
(* pb::IndexState, proto/meta.interface.proto:64-72 *)
Inductive istate := Public | WriteLocal | WriteOnly | DeleteOnly | DeleteLocal | NoState.
(* a local secondary index, KEY or UNIQUE.  ix_rest is IndexInfo::pk_fields: the primary key
   columns kept beside the indexed ones (schema_factory.cpp:1142-1192) *)
Record index := mkIx { ix_id : Z; ix_uniq : bool; ix_fields : list nat; ix_rest : list nat;
                       ix_state : istate; ix_disabled : bool }.
(* tb_indexes is _all_indexes without the primary key: dml_node.cpp:83-107.
   tb_default: FieldInfo::default_expr_value.  tb_ttl: the table has a TTL.
   tb_cstore: engine ROCKSDB_CSTORE *)
Record table := mkTb { tb_cols : nat; tb_pk : list nat; tb_default : nat -> cell;
                       tb_indexes : list index; tb_ttl : bool; tb_cstore : bool }.

Definition blank (tb : table) : rec := repeat None (tb_cols tb).
Definition nonpk (tb : table) : list nat := filter (fun f => negb (memb f (tb_pk tb))) (seq 0 (tb_cols tb)).

(* ---------------- the store ---------------- *)
Section Map.
Context {K V : Type} (dec : forall a b : K, {a = b} + {a <> b}).
Fixpoint mget (k : K) (m : list (K * V)) : option V :=
  match m with [] => None | (k', v) :: m' => if dec k k' then Some v else mget k m' end.
Definition mdel (k : K) (m : list (K * V)) : list (K * V) :=
  filter (fun e => if dec k (fst e) then false else true) m.
Definition mput (k : K) (v : V) (m : list (K * V)) : list (K * V) := (k, v) :: mdel k m.
End Map.

(* the key of an index record: index id, the cells of the indexed columns, and for a KEY
   index the primary key columns not among them *)
Definition ikey : Type := Z * list cell * list cell.
Definition ikey_dec (a b : ikey) : {a = b} + {a <> b}.
Proof. decide equality; [apply cells_dec|]. decide equality; [apply cells_dec|apply Z.eq_dec]. Defined.

(* the records of one region: the rows by primary key, each with the time it expires, and
   the index records, each with the time it expires and, for a UNIQUE index, the remaining
   primary key columns *)
Record store := mkSt { st_rows : list (list cell * (Z * rec));
                       st_index : list (ikey * (Z * list cell)) }.
Definition prow (st : store) (p : list cell) := mget cells_dec p (st_rows st).
Definition pidx (st : store) (k : ikey) := mget ikey_dec k (st_index st).

(* what a statement runs in: the schema, the time it reads at (_read_ttl_timestamp_us) and
   which primary keys belong to the region (its start and end key) *)
Record env := mkEnv { e_tb : table; e_now : Z; e_fits : list cell -> bool }.

(* ---------------- a statement ---------------- *)
Inductive node := InsertNode | UpdateNode | DeleteNode.
(* SET col = expr: the expression reads the row (only the columns of the statement's slots)
   and, through VALUES(col), the row that was to be inserted *)
Record assign := mkAs { a_field : nat; a_expr : rec -> rec -> cell }.
Record stmt := mkStmt {
  s_node : node; s_replace : bool; s_ignore : bool;
  s_updates : list assign;
  s_slots : list nat;            (* the columns of the tuple: those the statement mentions *)
  s_cond : rec -> bool;          (* WHERE *)
  s_recheck : bool;              (* need_condition_again *)
  s_wttl : Z;                    (* _ttl_timestamp_us: now + ttl *)
  s_keep : bool;                 (* _row_ttl_duration == -1 *)
  s_ddl : bool                   (* _ddl_need_write *)
}.
Definition on_dup (s : stmt) : bool :=
  match s_node s with InsertNode => negb (Nat.eqb (length (s_updates s)) 0) | _ => false end.
Definition upd_or_del (s : stmt) : bool := match s_node s with InsertNode => false | _ => true end.
Definition upd_fields (s : stmt) : list nat := map a_field (s_updates s).

(* ---------------- init_schema_info: dml_node.cpp:52-221 ---------------- *)
Definition touches (s : stmt) (fs : list nat) : bool := existsb (fun f => memb f (upd_fields s)) fs.
(* _update_affect_primary (its initial value, true, when nothing is updated): 148-181 *)
Definition affect_pk (tb : table) (s : stmt) : bool :=
  match s_updates s with [] => true | _ => touches s (tb_pk tb) end.
(* the columns of the tuple outside the primary key: add_delete_conditon_fields, 37-51 *)
Definition cond_fields (tb : table) (s : stmt) : list nat :=
  if upd_or_del s then filter (fun f => memb f (s_slots s)) (nonpk tb) else [].
Definition index_fields (tb : table) (ixs : list index) : list nat :=
  filter (fun f => existsb (fun ix => memb f (ix_fields ix)) ixs) (nonpk tb).
(* _affected_indexes: 148-218 *)
Definition affected (tb : table) (s : stmt) : list index :=
  match s_updates s with
  | [] => tb_indexes tb
  | _ => if affect_pk tb s || tb_ttl tb then tb_indexes tb
         else filter (fun ix => touches s (ix_fields ix)) (tb_indexes tb)
  end.
(* _field_ids: the columns read when a row is locked *)
Definition field_ids (tb : table) (s : stmt) : list nat :=
  match s_updates s with
  | _ :: _ =>
      if negb (affect_pk tb s) && negb (tb_ttl tb) && tb_cstore tb
      then index_fields tb (affected tb s) ++ cond_fields tb s
      else nonpk tb
  | [] => index_fields tb (tb_indexes tb) ++ cond_fields tb s
  end.
(* _update_field_ids: the columns rewritten in a column store: dml_node.cpp:183-212 and
   insert_node.cpp:106-113 *)
Definition update_field_ids (tb : table) (s : stmt) : list nat :=
  if s_replace s then nonpk tb
  else filter (fun f => memb f (upd_fields s)) (nonpk tb).

(* ---------------- transaction.cpp ---------------- *)
(* encode_key of the primary key: fails when a column is missing (table_record.cpp:182-186) *)
Definition encode_pk (tb : table) (r : rec) : option (list cell) :=
  let p := proj r (tb_pk tb) in if existsb isnull p then None else Some p.

Definition expired (ev : env) (e : Z) : bool := tb_ttl (e_tb ev) && (e <? e_now ev).

(* decode_fields (tuple_record.cpp:274-) and get_update_primary_columns (1648-1716): only the
   wanted columns are read; a column that is not stored reads as the column's default *)
Definition read_cell (tb : table) (stored : rec) (f : nat) : cell :=
  match fget stored f with None => tb_default tb f | c => c end.
Definition read_row (tb : table) (fields : list nat) (stored target : rec) : rec :=
  fold_left (fun r f => fset r f (read_cell tb stored f)) fields target.

Inductive getres := NotInRegion | Expired | NotFound | Found (e : Z) (r : rec).
(* get_update_primary, mode GET_LOCK, check_region: 689-803.  The record that carries the
   key receives the columns *)
Definition get_primary (ev : env) (st : store) (p : list cell) (target : rec) (fields : list nat) : getres :=
  if negb (e_fits ev p) then NotInRegion
  else match prow st p with
       | None => NotFound
       | Some (e, stored) => if expired ev e then Expired
                             else Found e (read_row (e_tb ev) fields stored target)
       end.

(* the primary key an index record stands for: get_full_primary_key (203-225) and the ranges
   of fits_region_range (284-411) *)
Definition entry_pk (tb : table) (ix : index) (cs rest : list cell) : list cell :=
  proj (set_all (set_all (blank tb) (ix_fields ix) cs) (ix_rest ix) rest) (tb_pk tb).

(* get_update_secondary of a UNIQUE index, mode GET_LOCK, check_region: 1063-1094, 1264-1342.
   When found, the primary key columns of the record are overwritten (decode_primary_key) *)
Definition get_secondary (ev : env) (st : store) (ix : index) (r : rec) : getres :=
  let cs := proj r (ix_fields ix) in
  match pidx st (ix_id ix, cs, []) with
  | None => NotFound
  | Some (e, rest) =>
      if expired ev e then Expired
      else if negb (e_fits ev (entry_pk (e_tb ev) ix cs rest)) then NotInRegion
      else Found e (set_all r (ix_rest ix) rest)
  end.

(* put_secondary: 485-560; remove: 1344-1412 *)
Definition rec_key (ix : index) (r : rec) : ikey :=
  (ix_id ix, proj r (ix_fields ix), if ix_uniq ix then [] else proj r (ix_rest ix)).
Definition rec_val (ix : index) (r : rec) : list cell :=
  if ix_uniq ix then proj r (ix_rest ix) else [].
Definition put_secondary (st : store) (ix : index) (r : rec) (w : Z) : store :=
  mkSt (st_rows st) (mput ikey_dec (rec_key ix r) (w, rec_val ix r) (st_index st)).
Definition remove_secondary (st : store) (ix : index) (r : rec) : store :=
  mkSt (st_rows st) (mdel ikey_dec (rec_key ix r) (st_index st)).

(* encode_field_for_cstore (table_record.cpp:362-): a NULL or default value is not stored *)
Definition enc_col (tb : table) (f : nat) (c : cell) : cell :=
  if cell_dec c (tb_default tb f) then None else c.
(* put_primary (413-480) and put_primary_columns (1584-1646).  upd is update_fields *)
Definition stored_row (tb : table) (old : option rec) (r : rec) (upd : option (list nat)) : rec :=
  if tb_cstore tb then
    let o := match old with Some o => o | None => blank tb end in
    map (fun f => let c := enc_col tb f (fget r f) in
           match upd with
           | Some fs => if memb f fs then c else fget o f
           | None => match c with None => fget o f | _ => c end
           end) (seq 0 (tb_cols tb))
  else r.
Definition put_primary (ev : env) (st : store) (p : list cell) (r : rec) (upd : option (list nat)) (w : Z) : store :=
  mkSt (mput cells_dec p (w, stored_row (e_tb ev) (option_map snd (prow st p)) r upd) (st_rows st)) (st_index st).
Definition remove_primary (st : store) (p : list cell) : store :=
  mkSt (mdel cells_dec p (st_rows st)) (st_index st).

(* ---------------- dml_node.cpp ---------------- *)
(* _txn's records, _ttl_timestamp_us and _num_increase_rows *)
Record ctx := mkCtx { c_st : store; c_ttl : Z; c_incr : Z }.
Definition with_st (c : ctx) (st : store) : ctx := mkCtx st (c_ttl c) (c_incr c).
Definition incr (c : ctx) (d : Z) : ctx := mkCtx (c_st c) (c_ttl c) (c_incr c + d).
(* the expiry time put in front of a value: only in a table with a TTL (put_kv_without_lock) *)
Definition wts (tb : table) (c : ctx) : Z := if tb_ttl tb then c_ttl c else 0.

(* an index that insert_row writes: 361-366, 436-441 *)
Definition writable_state (i : istate) : bool := match i with Public | WriteOnly | WriteLocal => true | _ => false end.
Definition writable (s : stmt) (ix : index) : bool := s_ddl s || writable_state (ix_state ix).
(* an index that remove_row deletes from: 578-588 *)
Definition removable (ix : index) : bool :=
  match ix_state ix with NoState => false | DeleteLocal => negb (ix_disabled ix) | _ => true end.

(* remove_row: 558-657 *)
Definition remove_row (ev : env) (c : ctx) (ixs : list index) (p : list cell) (r : rec) (del_pk : bool) : ctx :=
  let st1 := if del_pk then remove_primary (c_st c) p else c_st c in
  let st2 := fold_left (fun st ix => if removable ix then remove_secondary st ix r else st) ixs st1 in
  incr (with_st c st2) (-1).

(* the columns of the tuple, as the expressions and the condition see them *)
Definition slot_row (s : stmt) (r : rec) : rec :=
  map (fun f => if memb f (s_slots s) then fget r f else None) (seq 0 (length r)).

(* delete_row: 663-682, with get_lock_row (531-556) and satisfy_condition_again (685-697).
   p is the primary key the record carries; the record is otherwise cleared or will not be
   read elsewhere than in the columns of field_ids and the primary key *)
Definition key_rec (tb : table) (p : list cell) : rec := set_all (blank tb) (tb_pk tb) p.
Definition satisfy (s : stmt) (r : rec) : bool :=
  if s_recheck s && upd_or_del s then s_cond s (slot_row s r) else true.
Definition delete_row (ev : env) (s : stmt) (c : ctx) (ixs : list index) (target : rec) : option (ctx * Z) :=
  match encode_pk (e_tb ev) target with
  | None => None
  | Some p =>
      match get_primary ev (c_st c) p target (field_ids (e_tb ev) s) with
      | Found _ r => if satisfy s r then Some (remove_row ev c ixs p r true, 1) else Some (c, 0)
      | _ => Some (c, 0)
      end
  end.

(* the writes at the end of insert_row: 427-527 *)
Definition put_indexes (s : stmt) (ixs : list index) (st : store) (r : rec) (w : Z) : store :=
  fold_left (fun st ix => if writable s ix then put_secondary st ix r w else st) ixs st.
Definition put_row (ev : env) (s : stmt) (c : ctx) (ixs : list index) (p : list cell) (r : rec)
    (partly need_increase : bool) : ctx :=
  let tb := e_tb ev in
  let w := wts tb c in
  let st1 := put_indexes s ixs (c_st c) r w in
  let st2 := put_primary ev st1 p r (if partly then Some (update_field_ids tb s) else None) w in
  let c' := with_st c st2 in
  if need_increase then incr c' 1 else c'.

Inductive phase := Stop (res : option (ctx * Z)) | Go (c : ctx) (affected : Z).

(* the loop over the UNIQUE indexes: 353-426 *)
Fixpoint uniq_loop (ev : env) (s : stmt) (all : list index) (upd_k : ctx -> rec -> option (ctx * Z)) (is_update : bool)
    (r : rec) (ixs : list index) (c : ctx) (aff : Z) : phase :=
  match ixs with
  | [] => Go c aff
  | ix :: ixs' =>
      if writable s ix && ix_uniq ix then
        match get_secondary ev (c_st c) ix r with
        | Found _ old =>
            if is_update then Stop None
            else if s_ignore s then Stop (Some (c, 0))
            else if on_dup s then Stop (upd_k c old)
            else if s_replace s then
              match delete_row ev s c all old with
              | None => Stop None
              | Some (c', _) => uniq_loop ev s all upd_k is_update r ixs' c' (aff + 1)
              end
            else Stop None
        | _ => uniq_loop ev s all upd_k is_update r ixs' c aff
        end
      else uniq_loop ev s all upd_k is_update r ixs' c aff
  end.

(* insert_row: 223-529 *)
Definition insert_row_gen (ev : env) (s : stmt) (upd_k : ctx -> rec -> option (ctx * Z)) (is_update : bool)
    (c : ctx) (r : rec) : option (ctx * Z) :=
  let tb := e_tb ev in
  let ixs := if is_update then affected tb s else tb_indexes tb in
  let partly0 := negb (affect_pk tb s) && is_update in
  match encode_pk tb r with
  | None => None
  | Some p =>
      let finish (c : ctx) (aff : Z) (partly need_increase : bool) :=
        match uniq_loop ev s ixs upd_k is_update r ixs c aff with
        | Stop res => res
        | Go c' aff' => Some (put_row ev s c' ixs p r partly need_increase, aff' + 1)
        end in
      if negb is_update || affect_pk tb s then
        match get_primary ev (c_st c) p r (field_ids tb s) with
        | NotInRegion => Some (c, 0)
        | NotFound => finish c 0 partly0 true
        | Expired => finish c 0 partly0 false
        | Found _ old =>
            if s_ignore s then Some (c, 0)
            else if is_update then None
            else if on_dup s then upd_k c old
            else if s_replace s then finish (remove_row ev c ixs p old false) 1 true true
            else None
        end
      else finish c 0 partly0 true
  end.

(* SET: 743-775 *)
Definition apply_updates (s : stmt) (row vals r : rec) : rec :=
  fold_left (fun r a => fset r (a_field a) (a_expr a row vals)) (s_updates s) r.

(* update_row: 699-783.  target carries the primary key; for ON DUPLICATE KEY UPDATE the rest
   of it is cleared first, for UPDATE it is clear already *)
Definition update_row (ev : env) (s : stmt) (vals : rec) (c : ctx) (target : rec) : option (ctx * Z) :=
  let tb := e_tb ev in
  match encode_pk tb target with
  | None => None
  | Some p =>
      match get_primary ev (c_st c) p (key_rec tb p) (field_ids tb s) with
      | Found e r =>
          if satisfy s r then
            let ttl_ts := if tb_ttl tb then e else 0 in
            let c1 := if s_keep s && (0 <? c_ttl c) && (0 <? ttl_ts) then mkCtx (c_st c) ttl_ts (c_incr c) else c in
            let c2 := remove_row ev c1 (affected tb s) p r (affect_pk tb s) in
            let r' := apply_updates s (slot_row s r) vals r in
            match insert_row_gen ev s (fun _ _ => None) true c2 r' with
            | None => None
            | Some (c3, _) => Some (c3, 1)
            end
          else Some (c, 0)
      | _ => Some (c, 0)
      end
  end.

Definition insert_row (ev : env) (s : stmt) (c : ctx) (r : rec) : option (ctx * Z) :=
  insert_row_gen ev s (fun c old => match update_row ev s r c old with
                                    | Some (c', n) => Some (c', if n =? 1 then 2 else n)
                                    | None => None end) false c r.

(* ---------------- the statements ---------------- *)
Fixpoint each {A} (f : ctx -> A -> option (ctx * Z)) (c : ctx) (l : list A) (n : Z) : option (ctx * Z) :=
  match l with
  | [] => Some (c, n)
  | a :: l' => match f c a with None => None | Some (c', k) => each f c' l' (n + k) end
  end.
Definition start (ev : env) (s : stmt) (st : store) : ctx :=
  mkCtx st (if tb_ttl (e_tb ev) then s_wttl s else 0) 0.
(* InsertNode::open, insert_node.cpp:81-138 *)
Definition run_insert (ev : env) (s : stmt) (st : store) (rs : list rec) : option (ctx * Z) :=
  each (insert_row ev s) (start ev s st) rs 0.
(* UpdateNode::open, update_node.cpp:56-146, DeleteNode::open, delete_node.cpp:46-139, on the
   primary keys the scan below returned, in one batch *)
Definition run_update (ev : env) (s : stmt) (st : store) (ps : list (list cell)) : option (ctx * Z) :=
  each (fun c p => update_row ev s [] c (key_rec (e_tb ev) p)) (start ev s st) ps 0.
Definition run_delete (ev : env) (s : stmt) (st : store) (ps : list (list cell)) : option (ctx * Z) :=
  each (fun c p => delete_row ev s c (tb_indexes (e_tb ev)) (key_rec (e_tb ev) p)) (start ev s st) ps 0.
