(* C76: predicates with a subquery that refers to the outer query. *)
From Coq Require Import List ZArith Bool Arith Lia Sorting.Permutation.
From Verif Require Import Common.Bytes Common.KV Key.Model Key.Spec Join.Model Join.Spec Join.Keys.
From Verif Require Import Subquery.Spec Subquery.ApplyModel Subquery.ApplySpec Subquery.ApplyNode Subquery.ApplyTop.
Import ListNotations.

(* SELECT ... FROM outer WHERE x IN (SELECT e FROM sub WHERE moved) and x op ANY (...): for every
   size of the batches, the rows for which the predicate is TRUE (all of them, or LIMIT of them). *)
Theorem C76_in_and_any : forall A p x e truth moved in_eq cond sub inner outer src caps,
  (p = PIn \/ exists op, p = PAny op) ->
  ap_type A = apply_type p -> ap_conds A = apply_conds p x e truth moved -> ap_one_row A = apply_one_row p ->
  inputs_ok (hashes A) in_eq (ap_size A) (ap_outer A) (ap_inner A) (ap_conds A) sub inner outer ->
  supplies in_eq A sub inner outer src -> parent_ok A ->
  decides cond moved -> reads_outer (ap_size A) (ap_outer A) (ap_inner A) x -> type_of e = type_of x ->
  enough caps (2 * length outer) ->
  exists out, arun A src outer caps = Rows out /\
    up_to (ap_limit A) (outer_columns (ap_size A) (ap_outer A) out)
      (outer_columns (ap_size A) (ap_outer A) (filter (fun o => accepts p (type_of x) (side (alone (ap_size A) (ap_outer A) o) x)
        (sub_values (ap_size A) (ap_outer A) (ap_inner A) cond sub e o)) outer)).
Proof.
  intros A p x e truth moved in_eq cond sub inner outer src caps Hp J Cs One Ok Sup Par Cond Rx Te En.
  pose proof (predicate_top A p x e truth moved in_eq cond sub inner outer src caps J Cs One Ok Sup Par Cond Rx Te) as X.
  cbn zeta in X. specialize (X ltac:(destruct Hp as [->|[op ->]]; intros [?|?]; discriminate)).
  specialize (X ltac:(intros o _; destruct Hp as [->|[op ->]]; exact Logic.I)).
  destruct (arun A src outer caps) as [out| |]; [eauto| |contradiction].
  destruct X as [op ->]. destruct Hp as [E|[op' E]]; discriminate.
Qed.
Print Assumptions C76_in_and_any.

(* The other predicates, where the node is right: no NULLs for NOT IN and ALL, a SELECT list that
   is TRUE for EXISTS, at most one row for a comparison. *)
Theorem C76_other_predicates_partial : forall A p x e truth moved in_eq cond sub inner outer src caps,
  ap_type A = apply_type p -> ap_conds A = apply_conds p x e truth moved -> ap_one_row A = apply_one_row p ->
  inputs_ok (hashes A) in_eq (ap_size A) (ap_outer A) (ap_inner A) (ap_conds A) sub inner outer ->
  supplies in_eq A sub inner outer src -> parent_ok A ->
  decides cond moved -> reads_outer (ap_size A) (ap_outer A) (ap_inner A) x -> type_of e = type_of x ->
  (p = PExists \/ p = PNotExists -> forall r, truth r = Some true) ->
  let value o := side (alone (ap_size A) (ap_outer A) o) x in
  let values := sub_values (ap_size A) (ap_outer A) (ap_inner A) cond sub e in
  (forall o, In o outer -> covered p (value o) (values o)) ->
  match arun A src outer caps with
  | Rows out => up_to (ap_limit A) (outer_columns (ap_size A) (ap_outer A) out)
      (outer_columns (ap_size A) (ap_outer A) (filter (fun o => accepts p (type_of x) (value o) (values o)) outer))
  | Error => exists op, p = PScalar op
  | Unfinished => ~ enough caps (2 * length outer)
  end.
Proof. exact predicate_top. Qed.
Print Assumptions C76_other_predicates_partial.

(* x op (SELECT e FROM sub WHERE moved), op not "=", every condition in [moved] setting columns
   equal: "more than 1 row" exactly when the subquery has more than one row for some outer row. *)
Theorem C76_scalar_error_partial : forall A op x e truth moved in_eq cond sub inner outer src caps,
  op <> OpEq -> ap_type A = ASemi -> ap_conds A = apply_conds (PScalar op) x e truth moved -> ap_one_row A = true ->
  inputs_ok (hashes A) in_eq (ap_size A) (ap_outer A) (ap_inner A) (ap_conds A) sub inner outer ->
  supplies in_eq A sub inner outer src -> parent_ok A ->
  decides cond moved -> only_keys (ap_outer A) (ap_inner A) moved -> ap_limit A = None -> enough caps (2 * length outer) ->
  (arun A src outer caps = Error <->
   exists o, In o outer /\ scalar (sub_values (ap_size A) (ap_outer A) (ap_inner A) cond sub e o) = None).
Proof. exact scalar_error_top. Qed.
Print Assumptions C76_scalar_error_partial.

(* A subquery in the SELECT list: every outer row once per row of the subquery, or once with NULL. *)
Theorem C76_select_list_partial : forall A in_eq on sub inner outer src caps,
  inputs_ok (hashes A) in_eq (ap_size A) (ap_outer A) (ap_inner A) (ap_conds A) sub inner outer ->
  decides on (ap_conds A) -> supplies in_eq A sub inner outer src -> parent_ok A ->
  ap_type A = ALeft -> (hashes A = false -> ap_one_row A = true \/ forall o, (length (src_row src o) <= 1)%nat) -> (hashes A = true -> only_keys (ap_outer A) (ap_inner A) (ap_conds A)) ->
  match arun A src outer caps with
  | Unfinished => ~ enough caps (2 * length outer + length (padded (ap_size A) (ap_outer A) (ap_inner A) on sub outer))
  | Error => ap_one_row A = true
  | Rows out => up_to (ap_limit A) out (padded (ap_size A) (ap_outer A) (ap_inner A) on sub outer)
  end.
Proof. intros A in_eq on sub inner outer src caps Ok On Sup Par. exact (left_top A in_eq on sub inner outer src Ok On Sup Par caps). Qed.
Print Assumptions C76_select_list_partial.
(* The error, in general: two rows of the subquery agree with an outer row in the columns set equal. *)
Theorem C76_error_rows : forall A in_eq on sub inner outer src caps,
  inputs_ok (hashes A) in_eq (ap_size A) (ap_outer A) (ap_inner A) (ap_conds A) sub inner outer ->
  decides on (ap_conds A) -> supplies in_eq A sub inner outer src -> parent_ok A ->
  (ap_type A = ALeft -> (hashes A = false -> ap_one_row A = true \/ forall o, (length (src_row src o) <= 1)%nat) /\ (hashes A = true -> only_keys (ap_outer A) (ap_inner A) (ap_conds A))) ->
  plain (ap_conds A) -> ap_limit A = None ->
  enough caps (2 * length outer + length (padded (ap_size A) (ap_outer A) (ap_inner A) on sub outer)) ->
  (arun A src outer caps = Error <-> ap_one_row A = true /\ exists o, In o outer /\ several (ap_outer A) (ap_inner A) (ap_conds A) sub o).
Proof. intros A in_eq on sub inner outer src caps Ok On Sup Par. exact (error_top A in_eq on sub inner outer src Ok On Sup Par caps). Qed.
Print Assumptions C76_error_rows.

(* ---- a schema: t1(id, k, x) is tuple 0, t2(k, c) is tuple 1 ---- *)

Definition t1 (i k : Z) (x : option Z) : row := [Some [Some (VNum i); Some (VNum k); option_map VNum x]; None].
Definition t2 (k : Z) (c : option Z) : row := [None; Some [Some (VNum k); option_map VNum c]].
Definition k1 := Slot 0 1 INT64. Definition x1 := Slot 0 2 INT64. Definition k2 := Slot 1 0 INT64. Definition c2 := Slot 1 1 INT64.
Definition same_k : list jcond := [CEq (OSlot k2) (OSlot k1)].
Definition greater_k : list jcond := [compare_cond OpGt (OSlot k2) (OSlot k1)].
Definition same (a b : coltype) (v w : value) : bool := eq_fn a b (Some v) (Some w).
Definition always (_ : row) : option bool := Some true.
(* the SELECT list c as a condition *)
Definition c_true (r : row) : option bool := match col r c2 with Some (VNum z) => Some (negb (Z.eqb z 0)) | _ => None end.
Definition node (p : predicate) (truth : row -> option bool) (moved : list jcond) : apply :=
  Apply 2 (apply_type p) [0] [1] (apply_conds p (OSlot x1) (OSlot c2) truth moved) None None (apply_one_row p) false.
(* a store that gives the rows in order *)
Definition store (A : apply) (rows outer : list row) : source :=
  Source (fun o => filter (in_pass same (apairs A) [o]) rows) [filter (in_pass same (apairs A) outer) rows]
         (fun part => filter (in_pass same (apairs A) part) rows).
Lemma store_supplies A rows outer : supplies same A (fun _ => rows) rows outer (store A rows outer).
Proof. split; cbn; intros; rewrite ?app_nil_r; reflexivity. Qed.
Lemma same_exact : in_exact same.
Proof. intros a b v w. unfold same. apply eq_fn_spec. Qed.
Definition ids (o : outcome) : outcome := match o with Rows out => Rows (map (fun r => firstn 1 r) out) | _ => o end.
Definition sql (p : predicate) (cond : row -> bool) (rows outer : list row) : list row :=
  filter (fun o => accepts p INT64 (side (alone 2 [0] o) (OSlot x1)) (sub_values 2 [0] [1] cond (fun _ => rows) (OSlot c2) o)) outer.
Definition run_node (p : predicate) (truth : row -> option bool) (moved : list jcond) (rows outer : list row) : outcome :=
  arun (node p truth moved) (store (node p truth moved) rows outer) outer [3; 3; 3; 3; 3; 3; 3; 3; 3; 3; 3].

(* x NOT IN (SELECT c FROM t2 WHERE t2.k = t1.k) where c is NULL: a row, though the predicate is NULL. *)
Theorem C76_not_in_null_refuted : exists rows outer,
  run_node PNotIn always same_k rows outer = Rows outer /\ outer <> [] /\ sql PNotIn (is_satisfy_filter same_k) rows outer = [].
Proof. exists [t2 1 None], [t1 7 1 (Some 5%Z)]. split; [vm_compute; reflexivity|]. split; [discriminate|vm_compute; reflexivity]. Qed.
Print Assumptions C76_not_in_null_refuted.
(* x > ALL (SELECT c ...) with a NULL: likewise. *)
Theorem C76_all_null_refuted : exists rows outer,
  run_node (PAll OpGt) always same_k rows outer = Rows outer /\ outer <> [] /\ sql (PAll OpGt) (is_satisfy_filter same_k) rows outer = [].
Proof. exists [t2 1 None], [t1 7 1 (Some 5%Z)]. split; [vm_compute; reflexivity|]. split; [discriminate|vm_compute; reflexivity]. Qed.
Print Assumptions C76_all_null_refuted.
(* EXISTS (SELECT c FROM t2 WHERE t2.k = t1.k) where c is 0: no row, though the subquery has one. *)
Theorem C76_exists_select_list_refuted : exists rows outer,
  run_node PExists c_true same_k rows outer = Rows [] /\ sql PExists (is_satisfy_filter same_k) rows outer = outer /\ outer <> [].
Proof. exists [t2 1 (Some 0%Z)], [t1 7 1 (Some 5%Z)]. split; [vm_compute; reflexivity|]. split; [vm_compute; reflexivity|discriminate]. Qed.
Print Assumptions C76_exists_select_list_refuted.
(* x = (SELECT c FROM t2 WHERE t2.k = t1.k) with two rows: a row and no error, because x = c
   chooses the rows of the subquery. *)
Theorem C76_scalar_equal_no_error_refuted : exists rows o out,
  run_node (PScalar OpEq) always same_k rows [o] = Rows out /\ out <> [] /\
  scalar (sub_values 2 [0] [1] (is_satisfy_filter same_k) (fun _ => rows) (OSlot c2) o) = None.
Proof.
  exists [t2 1 (Some 5%Z); t2 1 (Some 6%Z)], (t1 7 1 (Some 5%Z)). eexists. split; [vm_compute; reflexivity|]. split; [discriminate|vm_compute; reflexivity].
Qed.
Print Assumptions C76_scalar_equal_no_error_refuted.
(* x < (SELECT c FROM t2 WHERE t2.k > t1.k) with one row: an error, because t2 has two rows. *)
Theorem C76_scalar_spurious_error_refuted : exists rows o v,
  run_node (PScalar OpLt) always greater_k rows [o] = Error /\
  scalar (sub_values 2 [0] [1] (is_satisfy_filter greater_k) (fun _ => rows) (OSlot c2) o) = Some v.
Proof.
  exists [t2 0 (Some 5%Z); t2 9 (Some 6%Z)], (t1 7 1 (Some 5%Z)). eexists. split; vm_compute; reflexivity.
Qed.
Print Assumptions C76_scalar_spurious_error_refuted.

(* ---- the hypotheses are met ---- *)

Definition rows1 : list row := [t1 1 1 (Some 5); t1 2 1 (Some 9); t1 3 2 None; t1 4 2 (Some 7); t1 5 3 (Some 5)]%Z.
Definition rows2 : list row := [t2 1 (Some 5); t2 1 (Some 6); t2 2 (Some 7); t2 4 (Some 5)]%Z.

Lemma key_of p truth l r : join_key [0] [1] (ap_conds (node p truth same_k)) l r -> (l = k1 /\ r = k2) \/ (l = x1 /\ r = c2).
Proof.
  intros (a & b & ([[-> ->]|[-> ->]] & Hl & Hr) & [X|(ps & X & _)]).
  - destruct X as [X|[X|[]]].
    + destruct p as [| |op|op|op| |]; try destruct op; try discriminate X; injection X as <- <-; auto.
    + injection X as <- <-. destruct Hl as [Hl|[]]; discriminate Hl.
  - destruct X as [X|[X|[]]]; [destruct p as [| |op|op|op| |]; try destruct op; discriminate X|discriminate X].
  - destruct X as [X|[X|[]]].
    + destruct p as [| |op|op|op| |]; try destruct op; try discriminate X; injection X as <- <-; destruct Hl as [Hl|[]]; discriminate Hl.
    + injection X as <- <-. auto.
  - destruct X as [X|[X|[]]]; [destruct p as [| |op|op|op| |]; try destruct op; discriminate X|discriminate X].
Qed.
Lemma node_ok p truth : inputs_ok (hashes (node p truth same_k)) same 2 [0] [1] (ap_conds (node p truth same_k)) (fun _ => rows2) rows2 rows1.
Proof.
  split.
  - intros t [<-|[]] [E|[]]; discriminate.
  - intros t [[<-|[]]|[<-|[]]]; lia.
  - intros _. apply same_exact.
  - intros _. split; [auto|]. split; [intros a b v w E; now apply same_exact|]. split.
    + right. left. intros l r K. apply key_of in K as [[-> ->]|[-> ->]]; reflexivity.
    + intros l r K. apply key_of in K as [[-> ->]|[-> ->]]; (split; [left; reflexivity|]); split; repeat constructor; intros v E; try discriminate E; injection E as <-; cbn; unfold int_val_ok; cbn; lia.
Qed.
Lemma x_outer : reads_outer 2 [0] [1] (OSlot x1).
Proof. intros o i. reflexivity. Qed.
Lemma no_parent p truth moved : parent_ok (node p truth moved).
Proof. intros k E. discriminate E. Qed.

Example C76_in_and_any_applies : exists out, run_node PIn always same_k rows2 rows1 = Rows out /\
  up_to None (outer_columns 2 [0] out) (outer_columns 2 [0] (sql PIn (is_satisfy_filter same_k) rows2 rows1)).
Proof.
  apply (C76_in_and_any (node PIn always same_k) PIn (OSlot x1) (OSlot c2) always same_k same (is_satisfy_filter same_k) (fun _ => rows2) rows2 rows1);
    auto using node_ok, store_supplies, no_parent, x_outer.
  - intros r. apply filter_spec.
  - split; [cbn; lia|repeat constructor].
Qed.
Example in_rows_ex : ids (run_node PIn always same_k rows2 rows1) = Rows [firstn 1 (t1 1 1 (Some 5)); firstn 1 (t1 4 2 (Some 7))]%Z.
Proof. vm_compute. reflexivity. Qed.
Example any_rows_ex : ids (run_node (PAny OpGt) always same_k rows2 rows1) = Rows [firstn 1 (t1 2 1 (Some 9))]%Z.
Proof. vm_compute. reflexivity. Qed.
Definition rows1' : list row := [t1 1 1 (Some 5); t1 2 1 (Some 9); t1 4 2 (Some 7); t1 5 3 (Some 5)]%Z.
Example all_rows_ex : ids (run_node (PAll OpGt) always same_k rows2 rows1') = Rows [firstn 1 (t1 2 1 (Some 9)); firstn 1 (t1 5 3 (Some 5))]%Z.
Proof. vm_compute. reflexivity. Qed.
Example exists_rows_ex : ids (run_node PNotExists always same_k rows2 rows1) = Rows [firstn 1 (t1 5 3 (Some 5))]%Z.
Proof. vm_compute. reflexivity. Qed.
(* NOT IN, on rows without NULLs *)
Lemma not_in_ok : inputs_ok (hashes (node PNotIn always same_k)) same 2 [0] [1] (ap_conds (node PNotIn always same_k)) (fun _ => rows2) rows2 rows1'.
Proof.
  destruct (node_ok PNotIn always) as [X1 X2 X3 X4]. split; auto. intros E. destruct (X4 E) as (_ & Y2 & _ & Y4). split; [auto|]. split; [exact Y2|]. split.
  - right. left. intros l r K. apply key_of in K as [[-> ->]|[-> ->]]; reflexivity.
  - intros l r K. destruct (Y4 l r K) as (Z1 & _ & Z3). split; [exact Z1|]. split; [|exact Z3].
    apply key_of in K as [[-> ->]|[-> ->]]; repeat constructor; intros v X; try discriminate X; injection X as <-; cbn; unfold int_val_ok; cbn; lia.
Qed.
Example C76_not_in_applies : exists out, run_node PNotIn always same_k rows2 rows1' = Rows out /\ length out = 2 /\
  up_to None (outer_columns 2 [0] out) (outer_columns 2 [0] (sql PNotIn (is_satisfy_filter same_k) rows2 rows1')).
Proof.
  pose proof (C76_other_predicates_partial (node PNotIn always same_k) PNotIn (OSlot x1) (OSlot c2) always same_k same (is_satisfy_filter same_k) (fun _ => rows2) rows2 rows1'
    (store (node PNotIn always same_k) rows2 rows1') [3; 3; 3; 3; 3; 3; 3; 3; 3; 3; 3] eq_refl eq_refl eq_refl not_in_ok
    (store_supplies _ _ _) (no_parent _ _ _) (filter_spec same_k) x_outer eq_refl) as X.
  cbn zeta in X. specialize (X ltac:(intros [E|E]; discriminate E)).
  specialize (X ltac:(intros o Ho; repeat (destruct Ho as [<-|Ho]; [split; [discriminate|vm_compute; repeat constructor; discriminate]|]); destruct Ho)).
  destruct (run_node PNotIn always same_k rows2 rows1') eqn:E; [|vm_compute in E; discriminate E|vm_compute in E; discriminate E].
  exists out. split; [reflexivity|]. split; [vm_compute in E; injection E as <-; reflexivity|]. unfold run_node in E. rewrite E in X. exact X.
Qed.
(* x > (SELECT c FROM t2 WHERE t2.k = t1.k): an error for k = 1 *)
Example C76_scalar_error_applies : run_node (PScalar OpGt) always same_k rows2 rows1 = Error.
Proof.
  apply (C76_scalar_error_partial (node (PScalar OpGt) always same_k) OpGt (OSlot x1) (OSlot c2) always same_k same (is_satisfy_filter same_k) (fun _ => rows2) rows2 rows1);
    auto using node_ok, store_supplies, no_parent; try discriminate.
  - intros r. apply filter_spec.
  - repeat constructor. exists k1, k2. repeat split; cbn; auto.
  - split; [cbn; lia|repeat constructor].
  - exists (t1 1 1 (Some 5%Z)). split; [now left|vm_compute; reflexivity].
Qed.
(* SELECT x, (SELECT c FROM t2 WHERE t2.k = t1.k) FROM t1 *)
Definition list_node : apply := Apply 2 ALeft [0] [1] same_k None None true false.
Definition rows2' : list row := [t2 1 (Some 5); t2 2 (Some 7); t2 4 (Some 5)]%Z.
Lemma list_ok : inputs_ok (hashes list_node) same 2 [0] [1] same_k (fun _ => rows2') rows2' rows1.
Proof.
  split.
  - intros t [<-|[]] [E|[]]; discriminate.
  - intros t [[<-|[]]|[<-|[]]]; lia.
  - intros _. apply same_exact.
  - intros E. vm_compute in E. discriminate E.
Qed.
Example C76_select_list_applies : exists out, arun list_node (store list_node rows2' rows1) rows1 [2; 2; 2; 2; 2; 2; 2; 2; 2; 2; 2; 2; 2; 2; 2; 2] = Rows out /\ length out = 5 /\
  up_to None out (padded 2 [0] [1] (is_satisfy_filter same_k) (fun _ => rows2') rows1).
Proof.
  pose proof (C76_select_list_partial list_node same (is_satisfy_filter same_k) (fun _ => rows2') rows2' rows1 (store list_node rows2' rows1) [2; 2; 2; 2; 2; 2; 2; 2; 2; 2; 2; 2; 2; 2; 2; 2]
    list_ok (filter_spec same_k) (store_supplies _ _ _) ltac:(intros k E; discriminate E) eq_refl ltac:(left; reflexivity) ltac:(intros E; vm_compute in E; discriminate E)) as X.
  destruct (arun list_node _ rows1 _) eqn:E; [|vm_compute in E; discriminate E|vm_compute in E; discriminate E].
  exists out. split; [reflexivity|]. split; [vm_compute in E; injection E as <-; reflexivity|exact X].
Qed.
