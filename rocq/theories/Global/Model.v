(* INSERT, INSERT IGNORE, REPLACE, INSERT .. ON DUPLICATE KEY UPDATE, UPDATE and DELETE on a
   table with global indexes.  The node that runs the statement (src/exec/insert_manager_node.cpp,
   update_manager_node.cpp, delete_manager_node.cpp) sends lock_primary and lock_secondary
   commands (lock_primary_node.cpp, lock_secondary_node.cpp) to the regions of the table and to
   those of each global index.

   The records, keys and the store are those of theories/Dml/Model.v; here the rows and every
   index live in regions of their own, which the index id in a key keeps apart.
   Not modelled: how records are spread over the regions of one index (theories/Route), the
   transaction the commands run in and its undoing when one fails (theories/Txn: a statement
   that fails leaves the store alone), local indexes of the same table (theories/Dml), indexes
   being built (every index is public), TTL, column stores, binlog, and the order in which the
   commands to different indexes run (they touch different records). *)
From Verif.Dml Require Export Model.
Local Open Scope Z_scope.

(* a table without TTL, one region for each index: nothing expires and every key fits *)
Definition genv (tb : table) : env := mkEnv tb 0 (fun _ => true).

(* _index_info_map, a std::map by index id: the primary key (the first id of a table) and the
   UNIQUE indexes: insert_manager_node.cpp:50-66, 90-105.  tb_indexes is taken in id order *)
Definition kind := option index.
Definition kinds (tb : table) : list kind := None :: map Some (filter ix_uniq (tb_indexes tb)).
Definition kid (k : kind) : option Z := option_map ix_id k.
(* encode_key: a NULL in a primary key column is refused where a row is written *)
Definition kkey (tb : table) (k : kind) (r : rec) : list cell :=
  match k with None => proj r (tb_pk tb) | Some ix => proj r (ix_fields ix) end.
Definition same_key (tb : table) (k : kind) (r o : rec) : bool :=
  if cells_dec (kkey tb k r) (kkey tb k o) then true else false.

(* create_lock_node, separate.cpp:683-731: UNIQUE indexes before the others *)
Definition order (ixs : list index) : list index :=
  filter ix_uniq ixs ++ filter (fun ix => negb (ix_uniq ix)) ixs.

Fixpoint ofold {A S : Type} (f : S -> A -> option S) (l : list A) (s : S) : option S :=
  match l with
  | [] => Some s
  | a :: l' => match f s a with Some s' => ofold f l' s' | None => None end
  end.

(* ---------------- lock_primary_node.cpp ---------------- *)
(* one deletion: delete_row of dml_node.cpp:663-682 with get_lock_row, all columns read
   (lock_primary_node.cpp:127-133); want is satisfy_condition_again, aff affect_primary.  The
   row is returned: LOCK_GET_DML, 203-218 *)
Definition del_primary (tb : table) (want : rec -> bool) (aff : bool) (st : store) (p : list cell) : store * list rec :=
  match get_primary (genv tb) st p (key_rec tb p) (nonpk tb) with
  | Found _ o => if want o then (if aff then remove_primary st p else st, [o]) else (st, [])
  | _ => (st, [])
  end.
Fixpoint del_primaries (tb : table) (want : rec -> bool) (aff : bool) (st : store) (ps : list (list cell)) : store * list rec :=
  match ps with
  | [] => (st, [])
  | p :: ps' => let '(st1, o) := del_primary tb want aff st p in
                let '(st2, os) := del_primaries tb want aff st1 ps' in (st2, o ++ os)
  end.
(* insert_row of dml_node.cpp:225-527 in a lock_primary node: the row must not exist, but when
   no primary key column changes (affect_primary false) it is overwritten *)
Definition ins_primary (tb : table) (aff : bool) (st : store) (r : rec) : option store :=
  match encode_pk tb r with
  | None => None
  | Some p =>
      if aff then
        match get_primary (genv tb) st p r (nonpk tb) with
        | Found _ _ => None
        | _ => Some (put_primary (genv tb) st p r None 0)
        end
      else Some (put_primary (genv tb) st p r None 0)
  end.
(* LOCK_GET, lock_get_main_table: 274-303 *)
Definition get_rows (tb : table) (st : store) (rs : list rec) : list rec :=
  flat_map (fun r => match get_primary (genv tb) st (proj r (tb_pk tb)) r (nonpk tb) with
                     | Found _ o => [o] | _ => [] end) rs.
(* LOCK_GET_ONLY_PRIMARY: 177-198; every row must exist *)
Fixpoint get_known (tb : table) (st : store) (rs : list rec) : option (list rec) :=
  match rs with
  | [] => Some []
  | r :: rs' =>
      match get_primary (genv tb) st (proj r (tb_pk tb)) r (nonpk tb) with
      | Found _ o => option_map (cons o) (get_known tb st rs')
      | _ => None
      end
  end.

(* ---------------- lock_secondary_node.cpp ---------------- *)
(* Transaction::get_update_secondary, transaction.cpp:1063-1094: nothing but a UNIQUE index is
   looked up *)
Definition get_sec (tb : table) (st : store) (ix : index) (r : rec) : getres :=
  if ix_uniq ix then get_secondary (genv tb) st ix r else NotFound.
(* delete_global_index: 296-315; the record carries the primary key that was found *)
Definition del_index (tb : table) (ix : index) (st : store) (r : rec) : store :=
  match get_sec tb st ix r with
  | NotInRegion => st
  | Found _ o => remove_secondary st ix o
  | _ => remove_secondary st ix r
  end.
(* insert_global_index, LOCK_DML: 243-295 *)
Definition ins_index (tb : table) (ix : index) (st : store) (r : rec) : option store :=
  match get_sec tb st ix r with
  | Found _ _ => None
  | _ => Some (put_secondary st ix r 0)
  end.
(* LOCK_GET: 160-180 *)
Definition get_entries (tb : table) (st : store) (ix : index) (rs : list rec) : list rec :=
  flat_map (fun r => match get_sec tb st ix r with Found _ o => [o] | _ => [] end) rs.

(* LOCK_DML to the table and to every index: the deletions, then the insertions
   (lock_primary_node.cpp:200-236, lock_secondary_node.cpp:181-210) *)
Definition dml_primary (tb : table) (dels ins : list rec) (st : store) : option store :=
  ofold (ins_primary tb true) ins (fst (del_primaries tb (fun _ => true) true st (map (fun r => proj r (tb_pk tb)) dels))).
Definition dml_index (tb : table) (dels ins : list rec) (st : store) (ix : index) : option store :=
  ofold (ins_index tb ix) ins (fold_left (del_index tb ix) dels st).
Definition dml (tb : table) (dels ins : list rec) (st : store) : option store :=
  match dml_primary tb dels ins st with
  | None => None
  | Some st1 => ofold (dml_index tb dels ins) (order (tb_indexes tb)) st1
  end.

(* ---------------- insert_manager_node.cpp ---------------- *)
(* process_records_before_send: 859-912, for INSERT and INSERT IGNORE.  The keys of all rows so
   far, and whether this row has one of them.  The keys of a row that is dropped stay: the
   erasing of 899-906 works on copies of the sets *)
Definition keyset := list (option Z * list cell).
Definition keyset_dec (a b : option Z * list cell) : {a = b} + {a <> b}.
Proof. decide equality; [apply cells_dec|]. decide equality. apply Z.eq_dec. Defined.
Fixpoint reg_row (tb : table) (ks : list kind) (reg : keyset) (r : rec) : keyset * bool :=
  match ks with
  | [] => (reg, false)
  | k :: ks' =>
      let e := (kid k, kkey tb k r) in
      if in_dec keyset_dec e reg then (fst (reg_row tb ks' reg r), true)
      else reg_row tb ks' (e :: reg) r
  end.
(* the rows that have no key of an earlier row *)
Fixpoint fresh_rows (tb : table) (reg : keyset) (rs : list rec) : list rec :=
  match rs with
  | [] => []
  | r :: rs' => let '(reg', dup) := reg_row tb (kinds tb) reg r in
                if dup then fresh_rows tb reg' rs' else r :: fresh_rows tb reg' rs'
  end.
(* the same, failing at the first row that has one *)
Fixpoint batch_ok (tb : table) (reg : keyset) (rs : list rec) : bool :=
  match rs with
  | [] => true
  | r :: rs' => let '(reg', dup) := reg_row tb (kinds tb) reg r in negb dup && batch_ok tb reg' rs'
  end.

(* basic_insert: 349-377 *)
Definition run_basic (tb : table) (st : store) (rs : list rec) : option (store * Z) :=
  if batch_ok tb [] rs then
    match dml tb [] rs st with Some st' => Some (st', Z.of_nat (length rs)) | None => None end
  else None.

(* what LOCK_GET brings for a key: get_record_from_store, 803-841 *)
Definition hits (tb : table) (st : store) (rs : list rec) (k : kind) : list rec :=
  match k with None => get_rows tb st rs | Some ix => get_entries tb st ix rs end.
(* a row of which a key came back *)
Definition hit (tb : table) (st : store) (rs : list rec) (r : rec) : bool :=
  existsb (fun k => existsb (same_key tb k r) (hits tb st rs k)) (kinds tb).

(* the command LOCK_NO, put_row (lock_primary_node.cpp:304-343) and put_global_index
   (lock_secondary_node.cpp:316-330): no lock, no check *)
Definition put_blind (tb : table) (st : store) (rs : list rec) : store :=
  fold_left (fun st ix => fold_left (fun st r => put_secondary st ix r 0) rs st) (order (tb_indexes tb))
    (fold_left (fun st r => put_primary (genv tb) st (proj r (tb_pk tb)) r None 0) rs st).
(* insert_ignore: 379-423.  Of the rows sent, each is the first with its keys, so the ids found
   for a key that came back are those of the rows that have it *)
Definition run_ignore (tb : table) (st : store) (rs : list rec) : store * Z :=
  let sent := fresh_rows tb [] rs in
  let kept := filter (fun r => negb (hit tb st sent r)) sent in
  (put_blind tb st kept, Z.of_nat (length kept)).

(* reverse_main_table: 697-801.  The index records of which the primary key did not come back
   from the table, each key once: the records sent to LOCK_GET_ONLY_PRIMARY, with the kind that
   brought them *)
Fixpoint reverse_list (tb : table) (known : list (list cell)) (k : kind) (os : list rec) (seen : list (list cell))
  : list (kind * rec) * list (list cell) :=
  match os with
  | [] => ([], seen)
  | o :: os' =>
      let p := proj o (tb_pk tb) in
      if in_dec cells_dec p known then reverse_list tb known k os' seen
      else if in_dec cells_dec p seen then reverse_list tb known k os' seen
      else let '(l, seen') := reverse_list tb known k os' (p :: seen) in ((k, o) :: l, seen')
  end.
Fixpoint reverse_all (tb : table) (st : store) (rs : list rec) (known : list (list cell)) (ks : list kind) (seen : list (list cell))
  : list (kind * rec) :=
  match ks with
  | [] => []
  | None :: ks' => reverse_all tb st rs known ks' seen
  | Some ix :: ks' =>
      let '(l, seen') := reverse_list tb known (Some ix) (hits tb st rs (Some ix)) seen in
      l ++ reverse_all tb st rs known ks' seen'
  end.
Definition reversed (tb : table) (st : store) (rs : list rec) : list (kind * rec) :=
  reverse_all tb st rs (map (fun o => proj o (tb_pk tb)) (get_rows tb st rs)) (kinds tb) [].
(* _store_records of the primary key after reverse_main_table; None when a row is not there *)
Definition store_rows (tb : table) (st : store) (rs : list rec) : option (list rec) :=
  option_map (app (get_rows tb st rs)) (get_known tb st (map snd (reversed tb st rs))).
(* _store_records of a key after reverse_main_table *)
Definition returned (tb : table) (st : store) (rs : list rec) (pri : list rec) (k : kind) : list rec :=
  match k with None => pri | Some _ => hits tb st rs k end.

Definition row_at (rs : list rec) (i : nat) : rec := nth i rs [].
Definition erase (i : nat) (ids : list nat) : list nat := filter (fun j => negb (Nat.eqb j i)) ids.
Definition ids_of (tb : table) (k : kind) (rs : list rec) (key : list cell) : list nat :=
  filter (fun i => if cells_dec (kkey tb k (row_at rs i)) key then true else false) (seq 0 (length rs)).

(* insert_replace: 425-519.  All but the last row with a key are dropped; a dropped row counts
   once if the key is in the table, twice otherwise *)
Definition drop_ids (w : Z) (is : list nat) (a : list nat * Z) : list nat * Z :=
  fold_left (fun '(ids, n) i => if memb i ids then (erase i ids, n + w) else (ids, n)) is a.
Definition replace_kind (tb : table) (rs : list rec) (ret : kind -> list rec) (a : list nat * Z) (k : kind) : list nat * Z :=
  let a1 := fold_left (fun a o => drop_ids 1 (removelast (ids_of tb k rs (kkey tb k o))) a) (ret k) a in
  fold_left (fun a r => drop_ids 2 (removelast (ids_of tb k rs (kkey tb k r))) a) rs a1.
Definition run_replace (tb : table) (st : store) (rs : list rec) : option (store * Z) :=
  match store_rows tb st rs with
  | None => None
  | Some pri =>
      let '(ids, n) := fold_left (replace_kind tb rs (returned tb st rs pri)) (kinds tb) (seq 0 (length rs), 0) in
      let ins := map (row_at rs) ids in
      match dml tb pri ins st with
      | None => None
      | Some st' => Some (st', n + Z.of_nat (length ins) + Z.of_nat (length pri))
      end
  end.

(* update_record: 636-668 *)
Definition upd (s : stmt) (r origin : rec) : rec := apply_updates s (slot_row s r) origin r.

(* insert_on_dup_key_update: 521-634.  _on_dup_key_update_records is a map from a key to a
   shared pointer: d_ptr has, for each key, the name of the record pointed to, and d_obj the
   records.  A record is named after the key it was first entered under; the last one entered
   under a name is the one pointed to.  The records are written in the order of their addresses
   (a std::set of pointers, 591-599), here in the order of d_obj *)
Definition oname : Type := option Z * list cell.
Record dstate := mkD { d_rows : list rec; d_ids : list nat; d_obj : list (oname * rec); d_ptr : list (oname * oname); d_dup : Z }.
Definition lookup (n : oname) (m : list (oname * oname)) : option oname := mget keyset_dec n m.
(* the pointers set by get_record_from_store (813-829) and reverse_main_table (748-763,
   780-798) *)
Definition ptr_init (tb : table) (st : store) (rs : list rec) (pri : list rec) : list (oname * rec) * list (oname * oname) :=
  let direct := get_rows tb st rs in
  let rev := reversed tb st rs in
  let obj1 := map (fun o => ((None, proj o (tb_pk tb)), o)) direct in
  let ptr1 := map (fun o => ((None, proj o (tb_pk tb)), (None, proj o (tb_pk tb)))) direct in
  let known := map (fun o => proj o (tb_pk tb)) direct in
  (* index records of rows the table returned *)
  let ptr2 := flat_map (fun k => match k with
                None => []
              | Some ix => flat_map (fun o => if in_dec cells_dec (proj o (tb_pk tb)) known
                              then [((kid k, kkey tb k o), (None, proj o (tb_pk tb)))] else [])
                              (hits tb st rs k)
              end) (kinds tb) in
  (* rows fetched afterwards: one record for each key in reversed_idx_keys_map *)
  let named := flat_map (fun o => flat_map (fun '(k, e) =>
                  if cells_dec (kkey tb k o) (kkey tb k e) then [((kid k, kkey tb k o), o)] else []) rev) pri in
  (fold_left (fun m x => mput keyset_dec (fst x) (snd x) m) (obj1 ++ named) [],
   ptr1 ++ ptr2 ++ map (fun x => (fst x, fst x)) named).

Fixpoint set_nth (l : list rec) (i : nat) (r : rec) : list rec :=
  match l, i with
  | [], _ => []
  | _ :: t, O => r :: t
  | h :: t, S i' => h :: set_nth t i' r
  end.
Definition set_obj (m : list (oname * rec)) (n : oname) (f : rec -> rec) : list (oname * rec) :=
  map (fun x => if keyset_dec (fst x) n then (fst x, f (snd x)) else x) m.

(* a row that has a key that came back: 540-555; None is a call through a null pointer *)
Definition hit_one (s : stmt) (name : oname) (d : dstate) (i : nat) : option dstate :=
  if memb i (d_ids d) then
    match lookup name (d_ptr d) with
    | None => None
    | Some o => Some (mkD (d_rows d) (erase i (d_ids d)) (set_obj (d_obj d) o (fun r => upd s r (row_at (d_rows d) i))) (d_ptr d) (d_dup d))
    end
  else Some d.
(* rows of the statement with the same key: 557-569 *)
Definition merge_one (s : stmt) (m : nat) (d : dstate) (i : nat) : dstate :=
  if memb i (d_ids d) then
    mkD (set_nth (d_rows d) m (upd s (row_at (d_rows d) m) (row_at (d_rows d) i))) (erase i (d_ids d)) (d_obj d) (d_ptr d) (d_dup d + 1)
  else d.
Definition dup_kind (tb : table) (s : stmt) (rs : list rec) (ret : kind -> list rec) (d : dstate) (k : kind) : option dstate :=
  match ofold (fun d o => ofold (hit_one s (kid k, kkey tb k o)) (ids_of tb k rs (kkey tb k o)) d) (ret k) d with
  | None => None
  | Some d1 =>
      Some (fold_left (fun d r => match ids_of tb k rs (kkey tb k r) with
                                  | m :: is => fold_left (merge_one s m) is d
                                  | [] => d
                                  end) rs d1)
  end.
(* GCrash: the process dies *)
Inductive gres := GFail | GCrash | GDone (st : store) (n : Z).
Definition run_on_dup (tb : table) (s : stmt) (st : store) (rs : list rec) : gres :=
  match store_rows tb st rs with
  | None => GFail
  | Some pri =>
      let '(obj, ptr) := ptr_init tb st rs pri in
      match ofold (dup_kind tb s rs (returned tb st rs pri)) (kinds tb) (mkD rs (seq 0 (length rs)) obj ptr 0) with
      | None => GCrash
      | Some d =>
          let ins := map (row_at (d_rows d)) (d_ids d) ++ map snd (d_obj d) in
          match dml tb pri ins st with
          | None => GFail
          | Some st' => GDone st' (2 * d_dup d + Z.of_nat (length ins) + Z.of_nat (length pri))
          end
      end
  end.

(* ---------------- update_manager_node.cpp, delete_manager_node.cpp ---------------- *)
(* open_global_delete: delete_manager_node.cpp:66-118.  ps: the keys the scan found *)
Definition run_gdelete (tb : table) (s : stmt) (st : store) (ps : list (list cell)) : store * Z :=
  let '(st1, olds) := del_primaries tb (satisfy s) true st ps in
  (fold_left (fun st ix => fold_left (del_index tb ix) olds st) (order (tb_indexes tb)) st1, Z.of_nat (length olds)).
(* update_manager_node.cpp:137-203: the rows are deleted, their entries taken from the indexes
   that have a column that is set (all when the primary key is), and the changed rows inserted *)
Definition run_gupdate (tb : table) (s : stmt) (st : store) (ps : list (list cell)) : option (store * Z) :=
  let aff := affect_pk tb s in
  let ixs := order (affected tb s) in
  let '(st1, olds) := del_primaries tb (satisfy s) aff st ps in
  let st2 := fold_left (fun st ix => fold_left (del_index tb ix) olds st) ixs st1 in
  match olds with
  | [] => Some (st2, 0)
  | _ =>
      let news := map (fun o => upd s o []) olds in
      if batch_ok tb [] news then
        match ofold (ins_primary tb aff) news st2 with
        | None => None
        | Some st3 =>
            match ofold (fun st ix => ofold (ins_index tb ix) news st) ixs st3 with
            | None => None
            | Some st4 => Some (st4, Z.of_nat (length news))
            end
        end
      else None
  end.
