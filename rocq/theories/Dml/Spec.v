(* What the statements mean, and what it means for the indexes of a table to agree with its
   rows.  Nothing here runs the code of Model.v; the schema, the rows and the statement are
   those of Model.v, and [rows] says which rows a store holds. *)
From Verif.Dml Require Import Model.
Local Open Scope Z_scope.

(* the rows of the region by primary key, each with the time it expires *)
Definition content := list cell -> option (Z * rec).
Definition eqc (T T' : content) : Prop := forall p, T p = T' p.
Definition cput (T : content) (p : list cell) (e : Z) (r : rec) : content :=
  fun q => if cells_dec p q then Some (e, r) else T q.
Definition cdel (T : content) (p : list cell) : content :=
  fun q => if cells_dec p q then None else T q.

(* a row as a SELECT reads it: the key's columns and every other column, the default where
   nothing is stored *)
Definition full_row (tb : table) (p : list cell) (stored : rec) : rec :=
  read_row tb (nonpk tb) stored (key_rec tb p).
(* the rows of a store: those of the region that have not expired *)
Definition rows (ev : env) (st : store) : content := fun p =>
  if e_fits ev p then
    match prow st p with
    | Some (e, stored) => if expired ev e then None else Some (e, full_row (e_tb ev) p stored)
    | None => None
    end
  else None.

Definition pk_of (tb : table) (r : rec) : list cell := proj r (tb_pk tb).

(* ---------------- duplicates ---------------- *)
(* two rows may not both be in the table: the same primary key, or the same values in the
   columns of a UNIQUE index (NULL is taken as a value like any other) *)
Definition clash (tb : table) (act : index -> bool) (r o : rec) : Prop :=
  pk_of tb r = pk_of tb o \/
  exists ix, In ix (tb_indexes tb) /\ ix_uniq ix = true /\ act ix = true /\
             proj r (ix_fields ix) = proj o (ix_fields ix).
(* the row an INSERT of r collides with first: by primary key, else by the first UNIQUE
   index that has it *)
Definition first_clash (tb : table) (act : index -> bool) (T : content) (r : rec) (q : list cell) (e : Z) (o : rec) : Prop :=
  T q = Some (e, o) /\
  (q = pk_of tb r \/
   (T (pk_of tb r) = None /\
    exists before ix after, tb_indexes tb = before ++ ix :: after /\
      ix_uniq ix = true /\ act ix = true /\ proj r (ix_fields ix) = proj o (ix_fields ix) /\
      forall ix' q' e' o', In ix' before -> ix_uniq ix' = true -> act ix' = true ->
         T q' = Some (e', o') -> proj r (ix_fields ix') <> proj o' (ix_fields ix'))).

(* the indexes that statements write: those of which the state says so, and the one a
   statement is there to fill *)
Definition in_use (ix : index) : bool := match ix_state ix with Public | WriteOnly | WriteLocal => true | _ => false end.
Definition enforced (s : stmt) (ix : index) : bool := s_ddl s || in_use ix.
(* the indexes that statements delete from *)
Definition cleared (ix : index) : bool :=
  match ix_state ix with NoState => false | DeleteLocal => negb (ix_disabled ix) | _ => true end.

(* the row as the expressions of a statement see it: they are functions of the columns the
   statement mentions *)
Definition seen (s : stmt) (o : rec) : rec :=
  map (fun f => if existsb (Nat.eqb f) (s_slots s) then nth f o None else None) (seq 0 (length o)).
(* SET on a row: every expression reads the row as it was; the last one for a column counts *)
Definition last_set (us : list assign) (f : nat) : option assign :=
  find (fun a => Nat.eqb (a_field a) f) (rev us).
Definition set_row (s : stmt) (o vals : rec) : rec :=
  map (fun f => match last_set (s_updates s) f with
                | Some a => a_expr a (seen s o) vals
                | None => nth f o None
                end) (seq 0 (length o)).

Inductive outcome := Fails | Does (T : content) (n : Z).

(* ---------------- one row of an INSERT ---------------- *)
Definition free (tb : table) (act : index -> bool) (T : content) (r : rec) : Prop :=
  forall q e o, T q = Some (e, o) -> ~ clash tb act r o.
Definition others_free (tb : table) (act : index -> bool) (T : content) (q0 : list cell) (r : rec) : Prop :=
  forall q e o, q <> q0 -> T q = Some (e, o) -> ~ clash tb act r o.

(* the row that ends up in the place of o; it keeps its expiry time if the statement says so *)
Inductive set_spec (ev : env) (s : stmt) (w : Z) (T : content) (q : list cell) (e : Z) (o vals : rec) (n : Z) : outcome -> Prop :=
| set_ok T' : others_free (e_tb ev) (enforced s) T q (set_row s o vals) ->
    eqc T' (cput (cdel T q) (pk_of (e_tb ev) (set_row s o vals)) (if s_keep s then e else w) (set_row s o vals)) ->
    set_spec ev s w T q e o vals n (Does T' n)
| set_dup q' e' o' : q' <> q -> T q' = Some (e', o') -> clash (e_tb ev) (enforced s) (set_row s o vals) o' ->
    set_spec ev s w T q e o vals n Fails.

Inductive insert_spec (ev : env) (s : stmt) (w : Z) (T : content) (r : rec) : outcome -> Prop :=
(* the row belongs to another region *)
| ins_elsewhere T' : e_fits ev (pk_of (e_tb ev) r) = false -> eqc T' T -> insert_spec ev s w T r (Does T' 0)
| ins_new T' : e_fits ev (pk_of (e_tb ev) r) = true ->
    free (e_tb ev) (enforced s) T r ->
    eqc T' (cput T (pk_of (e_tb ev) r) w r) -> insert_spec ev s w T r (Does T' 1)
| ins_ignore T' q e o : e_fits ev (pk_of (e_tb ev) r) = true ->
    s_ignore s = true -> T q = Some (e, o) -> clash (e_tb ev) (enforced s) r o ->
    eqc T' T -> insert_spec ev s w T r (Does T' 0)
| ins_update q e o out : e_fits ev (pk_of (e_tb ev) r) = true ->
    s_ignore s = false -> on_dup s = true ->
    first_clash (e_tb ev) (enforced s) T r q e o ->
    set_spec ev s w T q e o r 2 out -> insert_spec ev s w T r out
(* every row it collides with is deleted; each counts *)
| ins_replace T' qs : e_fits ev (pk_of (e_tb ev) r) = true ->
    s_ignore s = false -> on_dup s = false -> s_replace s = true ->
    NoDup qs ->
    (forall q, In q qs <-> exists e o, T q = Some (e, o) /\ clash (e_tb ev) (enforced s) r o) ->
    eqc T' (cput (fun q => if in_dec cells_dec q qs then None else T q) (pk_of (e_tb ev) r) w r) ->
    insert_spec ev s w T r (Does T' (1 + Z.of_nat (length qs)))
| ins_dup q e o : e_fits ev (pk_of (e_tb ev) r) = true ->
    s_ignore s = false -> on_dup s = false -> s_replace s = false ->
    T q = Some (e, o) -> clash (e_tb ev) (enforced s) r o ->
    insert_spec ev s w T r Fails.

(* ---------------- one row of an UPDATE or DELETE ---------------- *)
Definition wanted (s : stmt) (o : rec) : bool := if s_recheck s then s_cond s (seen s o) else true.
Inductive update_spec (ev : env) (s : stmt) (w : Z) (T : content) (q : list cell) : outcome -> Prop :=
| upd_none T' : T q = None -> eqc T' T -> update_spec ev s w T q (Does T' 0)
| upd_not_wanted T' e o : T q = Some (e, o) -> wanted s o = false -> eqc T' T -> update_spec ev s w T q (Does T' 0)
| upd_row e o out : T q = Some (e, o) -> wanted s o = true -> set_spec ev s w T q e o [] 1 out -> update_spec ev s w T q out.

Inductive delete_spec (s : stmt) (T : content) (q : list cell) : outcome -> Prop :=
| del_none T' : T q = None -> eqc T' T -> delete_spec s T q (Does T' 0)
| del_not_wanted T' e o : T q = Some (e, o) -> wanted s o = false -> eqc T' T -> delete_spec s T q (Does T' 0)
| del_row T' e o : T q = Some (e, o) -> wanted s o = true -> eqc T' (cdel T q) -> delete_spec s T q (Does T' 1).

(* ---------------- a statement: its rows one after the other, until one fails ------------- *)
Inductive all_rows {A} (step : content -> A -> outcome -> Prop) : content -> list A -> outcome -> Prop :=
| all_nil T T' : eqc T T' -> all_rows step T [] (Does T' 0)
| all_fail T a l : step T a Fails -> all_rows step T (a :: l) Fails
| all_cons T a l T' n out : step T a (Does T' n) -> all_rows step T' l out ->
    all_rows step T (a :: l) (match out with Fails => Fails | Does T2 m => Does T2 (n + m) end).

Definition view (ev : env) (res : option (ctx * Z)) : outcome :=
  match res with None => Fails | Some (c, n) => Does (rows ev (c_st c)) n end.

(* ---------------- indexes ---------------- *)
(* the index has a record with these cells for this primary key, expiring at e *)
Definition holds (st : store) (ix : index) (cs rest : list cell) (e : Z) : Prop :=
  pidx st (ix_id ix, cs, if ix_uniq ix then [] else rest) = Some (e, if ix_uniq ix then rest else []).
(* every live record of the index is that of a row *)
Definition sound (ev : env) (st : store) (ix : index) : Prop :=
  forall cs rest e, holds st ix cs rest e -> expired ev e = false ->
    e_fits ev (entry_pk (e_tb ev) ix cs rest) = true ->
    exists o, rows ev st (entry_pk (e_tb ev) ix cs rest) = Some (e, o) /\
              proj o (ix_fields ix) = cs /\ proj o (ix_rest ix) = rest.
(* the rows of which P holds are all in the index *)
Definition complete_on (ev : env) (st : store) (ix : index) (P : list cell -> Prop) : Prop :=
  forall q e o, P q -> rows ev st q = Some (e, o) ->
    holds st ix (proj o (ix_fields ix)) (proj o (ix_rest ix)) e.
(* no two rows have the same values in the columns of a UNIQUE index *)
Definition no_duplicates (ev : env) (st : store) (ix : index) : Prop :=
  forall q e o q' e' o', rows ev st q = Some (e, o) -> rows ev st q' = Some (e', o') ->
    proj o (ix_fields ix) = proj o' (ix_fields ix) -> q = q'.

(* a row is found under a key without NULL, and only a table with a TTL keeps expiry times *)
Definition keys_ok (ev : env) (st : store) : Prop :=
  forall q e o, rows ev st q = Some (e, o) ->
    length q = length (tb_pk (e_tb ev)) /\ existsb isnull q = false /\ (tb_ttl (e_tb ev) = false -> e = 0).
(* the indexes agree with the rows: an index that is written has every row, and no index a row
   is removed from has a record of a row that is not there *)
Definition consistent (ev : env) (st : store) : Prop :=
  keys_ok ev st /\
  forall ix, In ix (tb_indexes (e_tb ev)) ->
    (cleared ix = true -> sound ev st ix) /\
    (in_use ix = true -> complete_on ev st ix (fun _ => True)).

(* ---------------- what is asked of schemas, rows and statements ---------------- *)
Definition wf_table (tb : table) : Prop :=
  NoDup (tb_pk tb) /\ Forall (fun f => (f < tb_cols tb)%nat) (tb_pk tb) /\
  (forall ix, In ix (tb_indexes tb) ->
     Forall (fun f => (f < tb_cols tb)%nat) (ix_fields ix) /\
     (forall f, In f (ix_rest ix) -> In f (tb_pk tb)) /\
     (forall f, In f (tb_pk tb) -> In f (ix_fields ix) \/ In f (ix_rest ix))) /\
  (forall ix ix', In ix (tb_indexes tb) -> In ix' (tb_indexes tb) -> ix_id ix = ix_id ix' -> ix = ix') /\
  (tb_cstore tb = true -> tb_ttl tb = false).
(* a row to insert: every column there, no NULL in the primary key, no NULL in a column that
   has a default (insert_planner.cpp fills those in) *)
Definition wf_row (tb : table) (r : rec) : Prop :=
  length r = tb_cols tb /\ existsb isnull (pk_of tb r) = false /\
  forall f, (f < tb_cols tb)%nat -> fget r f = None -> tb_default tb f = None.
Definition wf_stmt (tb : table) (s : stmt) : Prop :=
  forall a, In a (s_updates s) -> (a_field a < tb_cols tb)%nat /\
    forall row vals, a_expr a row vals = None -> tb_default tb (a_field a) = None /\ ~ In (a_field a) (tb_pk tb).
(* rows that are written do not expire at once *)
Definition wf_time (ev : env) (s : stmt) : Prop := tb_ttl (e_tb ev) = true -> 0 < e_now ev /\ e_now ev <= s_wttl s.
(* the columns the SET expressions read were read from the row *)
Definition reads_covered (tb : table) (s : stmt) : Prop :=
  forall f, In f (s_slots s) -> In f (tb_pk tb) \/ In f (field_ids tb s) \/ (tb_cols tb <= f)%nat.

(* the expiry time of the rows a statement writes *)
Definition expiry (ev : env) (s : stmt) : Z := if tb_ttl (e_tb ev) then s_wttl s else 0.
Definition wf_key (tb : table) (p : list cell) : Prop := length p = length (tb_pk tb) /\ existsb isnull p = false.
(* an INSERT; with ON DUPLICATE KEY UPDATE: the columns the SET clauses read were read (they
   are, but in a column store), no SET of a primary key column unless the region has every
   key, and rows do not keep their expiry time *)
Definition wf_insert (ev : env) (s : stmt) : Prop :=
  s_node s = InsertNode /\ s_ddl s = false /\ s_keep s = false /\
  (on_dup s = true -> s_replace s = false /\ reads_covered (e_tb ev) s /\
     (affect_pk (e_tb ev) s = false \/ forall p, e_fits ev p = true)).
(* an UPDATE (one that sets a primary key column in a region that is not the whole table is
   planned as a DELETE and an INSERT) *)
Definition wf_update (ev : env) (s : stmt) : Prop :=
  s_node s = UpdateNode /\ s_ddl s = false /\ s_updates s <> [] /\ s_ignore s = false /\ s_replace s = false /\
  (affect_pk (e_tb ev) s = false \/ forall p, e_fits ev p = true).
Definition wf_delete (s : stmt) : Prop := s_node s = DeleteNode /\ s_updates s = [].

(* ---------------- a region's life ---------------- *)
(* statements one after the other, each complete or without effect; time passes; the region is
   cut *)
Inductive life : env -> store -> env -> store -> Prop :=
| life_here ev st : life ev st ev st
| life_insert ev st s rs c n ev' st' : wf_stmt (e_tb ev) s -> wf_time ev s -> wf_insert ev s -> Forall (wf_row (e_tb ev)) rs ->
    run_insert ev s st rs = Some (c, n) -> life ev (c_st c) ev' st' -> life ev st ev' st'
| life_update ev st s ps c n ev' st' : wf_stmt (e_tb ev) s -> wf_time ev s -> wf_update ev s -> Forall (wf_key (e_tb ev)) ps ->
    run_update ev s st ps = Some (c, n) -> life ev (c_st c) ev' st' -> life ev st ev' st'
| life_delete ev st s ps c n ev' st' : wf_delete s -> Forall (wf_key (e_tb ev)) ps ->
    run_delete ev s st ps = Some (c, n) -> life ev (c_st c) ev' st' -> life ev st ev' st'
| life_time ev st now ev' st' : e_now ev <= now -> life (mkEnv (e_tb ev) now (e_fits ev)) st ev' st' -> life ev st ev' st'
| life_cut ev st fits ev' st' : (forall p, fits p = true -> e_fits ev p = true) ->
    life (mkEnv (e_tb ev) (e_now ev) fits) st ev' st' -> life ev st ev' st'.

(* every index but one agrees with the rows; that one has no record that is not of a row *)
Definition consistent_but (ix0 : index) (ev : env) (st : store) : Prop :=
  keys_ok ev st /\
  forall ix, In ix (tb_indexes (e_tb ev)) ->
    (cleared ix = true -> sound ev st ix) /\
    (in_use ix = true -> ix <> ix0 -> complete_on ev st ix (fun _ => True)).
