(* C77: comparisons with an aggregate over a subquery that refers to the outer query. *)
From Coq Require Import List ZArith Bool Arith Lia Sorting.Permutation.
From Verif Require Import Common.Bytes Common.KV Key.Model Key.Spec Join.Model Join.Spec Join.Keys.
From Verif Require Import Subquery.Spec Subquery.ApplyModel Subquery.ApplySpec Subquery.AggModel Subquery.AggSpec Subquery.AggProofs.
Import ListNotations.

(* x op (SELECT f(e) FROM sub WHERE moved), where f of no values is NULL (SUM, MIN, MAX, AVG) and
   every condition in [moved] sets a column of the subquery equal to an expression over the outer
   row: the outer rows with x op f(values for the row). *)
Theorem C77_aggregates_partial : forall A op x t a f e moved in_eq cond rows outer src caps,
  ap_type A = ASemi -> ap_conds A = agg_conds true op x t a moved -> ap_one_row A = false ->
  inputs_ok (hashes A) in_eq (ap_size A) (ap_outer A) (ap_inner A) (ap_conds A) (agg_rows true (ap_size A) a (ap_outer A) (ap_inner A) f e moved rows)
    (aggregated (ap_size A) a f e (group_slots (ap_inner A) moved) rows) outer ->
  supplies in_eq A (agg_rows true (ap_size A) a (ap_outer A) (ap_inner A) f e moved rows)
    (aggregated (ap_size A) a f e (group_slots (ap_inner A) moved) rows) outer src -> parent_ok A ->
  decides cond moved -> reads_outer (ap_size A) (ap_outer A) (ap_inner A) x -> type_of x = t -> In a (ap_inner A) ->
  f [] = None -> moved <> [] -> Forall (sets_key (ap_size A) a (ap_outer A) (ap_inner A)) moved ->
  enough caps (2 * length outer) ->
  exists out, arun A src outer caps = Rows out /\
    up_to (ap_limit A) (outer_columns (ap_size A) (ap_outer A) out)
      (outer_columns (ap_size A) (ap_outer A) (filter (fun o => is_true (compare3 (value_compare t) op (side (alone (ap_size A) (ap_outer A) o) x)
         (f (agg_values (ap_size A) (ap_outer A) (ap_inner A) cond e rows o)))) outer)).
Proof. intros. eapply (agg_top A true); eauto. Qed.
Print Assumptions C77_aggregates_partial.

(* COUNT of all rows is computed for each outer row: any function, any conditions. *)
Theorem C77_count_of_rows : forall A op x t a f e moved in_eq cond rows outer src caps,
  ap_type A = ASemi -> ap_conds A = agg_conds false op x t a moved -> ap_one_row A = false ->
  inputs_ok (hashes A) in_eq (ap_size A) (ap_outer A) (ap_inner A) (ap_conds A) (agg_rows false (ap_size A) a (ap_outer A) (ap_inner A) f e moved rows)
    (aggregated (ap_size A) a f e (group_slots (ap_inner A) moved) rows) outer ->
  supplies in_eq A (agg_rows false (ap_size A) a (ap_outer A) (ap_inner A) f e moved rows)
    (aggregated (ap_size A) a f e (group_slots (ap_inner A) moved) rows) outer src -> parent_ok A ->
  decides cond moved -> reads_outer (ap_size A) (ap_outer A) (ap_inner A) x -> type_of x = t -> In a (ap_inner A) ->
  enough caps (2 * length outer) ->
  exists out, arun A src outer caps = Rows out /\
    up_to (ap_limit A) (outer_columns (ap_size A) (ap_outer A) out)
      (outer_columns (ap_size A) (ap_outer A) (filter (fun o => is_true (compare3 (value_compare t) op (side (alone (ap_size A) (ap_outer A) o) x)
         (f (agg_values (ap_size A) (ap_outer A) (ap_inner A) cond e rows o)))) outer)).
Proof. intros. eapply (agg_top A false); eauto. discriminate. Qed.
Print Assumptions C77_count_of_rows.

(* SELECT .., (SELECT f(e) FROM sub WHERE moved) FROM outer: every outer row once, with the value
   of the function.  The subquery is run for each outer row and has one row. *)
Theorem C77_select_list : forall A a f e moved in_eq cond rows outer src caps,
  ap_type A = ALeft -> ap_conds A = [] ->
  inputs_ok false in_eq (ap_size A) (ap_outer A) (ap_inner A) [] (agg_rows false (ap_size A) a (ap_outer A) (ap_inner A) f e moved rows) [] outer ->
  supplies in_eq A (agg_rows false (ap_size A) a (ap_outer A) (ap_inner A) f e moved rows) [] outer src -> parent_ok A ->
  (forall o, length (src_row src o) <= 1) -> decides cond moved -> In a (ap_inner A) ->
  enough caps (3 * length outer) ->
  exists out rest, arun A src outer caps = Rows out /\
    Permutation (map (fun r => (alone (ap_size A) (ap_outer A) r, get_value r a 0)) out ++ rest)
      (map (fun o => (alone (ap_size A) (ap_outer A) o, f (agg_values (ap_size A) (ap_outer A) (ap_inner A) cond e rows o))) outer) /\
    (rest = [] \/ exists k, ap_limit A = Some k /\ k <= length out).
Proof. exact agg_list_top. Qed.
Print Assumptions C77_select_list.

(* ---- a schema: t1(id, k, x) is tuple 0, t2(k, c) is tuple 1, the aggregate is tuple 2 ---- *)

Definition t1 (i k : Z) (x : option Z) : row := [Some [Some (VNum i); Some (VNum k); option_map VNum x]; None; None].
Definition t2 (k : Z) (c : option Z) : row := [None; Some [Some (VNum k); option_map VNum c]; None].
Definition k1 := Slot 0 1 INT64. Definition x1 := Slot 0 2 INT64. Definition k2 := Slot 1 0 INT64. Definition c2 := Slot 1 1 INT64.
Definition same_k : list jcond := [CEq (OSlot k2) (OSlot k1)].
Definition greater_k : list jcond := [compare_cond OpGt (OSlot k2) (OSlot k1)].
Definition same (a b : coltype) (v w : value) : bool := eq_fn a b (Some v) (Some w).
Fixpoint nums (vs : list (option value)) : list Z := match vs with Some (VNum z) :: q => z :: nums q | _ :: q => nums q | [] => [] end.
Definition sum_fn (vs : list (option value)) : option value := match nums vs with [] => None | l => Some (VNum (fold_right Z.add 0%Z l)) end.
Definition count_fn (vs : list (option value)) : option value := Some (VNum (Z.of_nat (length (nums vs)))).
Definition node (split : bool) (op : cop) (moved : list jcond) : apply :=
  Apply 3 ASemi [0] [1; 2] (agg_conds split op (OSlot x1) INT64 2 moved) None None false true.
Definition below (split : bool) f (moved : list jcond) (rows : list row) : row -> list row := agg_rows split 3 2 [0] [1; 2] f (fun r => col r c2) moved rows.
Definition store (A : apply) (sub : row -> list row) (inner outer : list row) : source :=
  Source (fun o => filter (in_pass same (apairs A) [o]) (sub o)) [filter (in_pass same (apairs A) outer) inner]
         (fun part => filter (in_pass same (apairs A) part) inner).
Lemma store_supplies A sub inner outer : supplies same A sub inner outer (store A sub inner outer).
Proof. split; cbn; intros; rewrite ?app_nil_r; reflexivity. Qed.
Definition grouped f (moved : list jcond) (rows : list row) : list row := aggregated 3 2 f (fun r => col r c2) (group_slots [1; 2] moved) rows.
Definition run_node (split : bool) (op : cop) f (moved : list jcond) (rows outer : list row) : outcome :=
  arun (node split op moved) (store (node split op moved) (below split f moved rows) (grouped f moved rows) outer) outer [3; 3; 3; 3; 3; 3; 3; 3; 3; 3; 3].
Definition sql (op : cop) f (moved : list jcond) (rows outer : list row) : list row :=
  filter (fun o => is_true (compare3 (value_compare INT64) op (side (alone 3 [0] o) (OSlot x1)) (f (agg_values 3 [0] [1; 2] (is_satisfy_filter moved) (fun r => col r c2) rows o)))) outer.

(* x = (SELECT COUNT(c) FROM t2 WHERE t2.k = t1.k) for x = 0 and no row in t2: the row is lost. *)
Theorem C77_count_refuted : exists rows outer,
  run_node true OpEq count_fn same_k rows outer = Rows [] /\ sql OpEq count_fn same_k rows outer = outer /\ outer <> [].
Proof. exists [t2 2 (Some 5%Z)], [t1 7 1 (Some 0%Z)]. split; [vm_compute; reflexivity|]. split; [vm_compute; reflexivity|discriminate]. Qed.
Print Assumptions C77_count_refuted.
(* x = (SELECT SUM(c) FROM t2 WHERE t2.k > t1.k): the sum is over all rows of t2, and one of them
   stands for the condition. *)
Theorem C77_condition_above_aggregation_refuted : exists rows outer,
  run_node true OpEq sum_fn greater_k rows outer = Rows [] /\ sql OpEq sum_fn greater_k rows outer = outer /\ outer <> [].
Proof. exists [t2 2 (Some 5%Z); t2 0 (Some 6%Z)], [t1 7 1 (Some 5%Z)]. split; [vm_compute; reflexivity|]. split; [vm_compute; reflexivity|discriminate]. Qed.
Print Assumptions C77_condition_above_aggregation_refuted.

(* ---- the hypotheses are met ---- *)

Definition rows1 : list row := [t1 1 1 (Some 11); t1 2 1 (Some 9); t1 3 2 None; t1 4 2 (Some 7); t1 5 3 (Some 5)]%Z.
Definition rows2 : list row := [t2 1 (Some 5); t2 2 (Some 7); t2 1 (Some 6); t2 2 None; t2 4 (Some 5)]%Z.
Lemma node_ok split op f : inputs_ok (hashes (node split op same_k)) same 3 [0] [1; 2] (ap_conds (node split op same_k)) (below split f same_k rows2) (grouped f same_k rows2) rows1.
Proof.
  split.
  - intros t [<-|[]] [E|[E|[]]]; discriminate.
  - intros t [[<-|[]]|[<-|[<-|[]]]]; lia.
  - intros _ a b v w. unfold same. apply eq_fn_spec.
  - intros E. exfalso. unfold hashes in E. destruct (apairs (node split op same_k)); [discriminate E|]. cbn in E. discriminate E.
Qed.
Example C77_sum_applies : exists out, run_node true OpEq sum_fn same_k rows2 rows1 = Rows out /\ length out = 2 /\
  up_to None (outer_columns 3 [0] out) (outer_columns 3 [0] (sql OpEq sum_fn same_k rows2 rows1)).
Proof.
  destruct (C77_aggregates_partial (node true OpEq same_k) OpEq (OSlot x1) INT64 2 sum_fn (fun r => col r c2) same_k same (is_satisfy_filter same_k) rows2 rows1
    (store (node true OpEq same_k) (below true sum_fn same_k rows2) (grouped sum_fn same_k rows2) rows1) [3; 3; 3; 3; 3; 3; 3; 3; 3; 3; 3]) as (out & E & U);
    auto using node_ok, store_supplies; try discriminate.
  - apply (node_ok true OpEq sum_fn).
  - intros r. apply filter_spec.
  - intros o i. reflexivity.
  - cbn. auto.
  - repeat constructor. exists k2, (OSlot k1). repeat split; cbn; auto; try discriminate. intros u [= <-] [E|[E|[]]]; discriminate E.
  - split; [cbn; lia|repeat constructor].
  - exists out. split; [exact E|]. split; [vm_compute in E; injection E as <-; reflexivity|exact U].
Qed.
Example C77_count_applies : exists out, run_node false OpGe count_fn greater_k rows2 rows1 = Rows out /\ length out = 4 /\
  up_to None (outer_columns 3 [0] out) (outer_columns 3 [0] (sql OpGe count_fn greater_k rows2 rows1)).
Proof.
  destruct (C77_count_of_rows (node false OpGe greater_k) OpGe (OSlot x1) INT64 2 count_fn (fun r => col r c2) greater_k same (is_satisfy_filter greater_k) rows2 rows1
    (store (node false OpGe greater_k) (below false count_fn greater_k rows2) (grouped count_fn greater_k rows2) rows1) [3; 3; 3; 3; 3; 3; 3; 3; 3; 3; 3]) as (out & E & U);
    auto using store_supplies; try discriminate.
  - split.
    + intros t [<-|[]] [E|[E|[]]]; discriminate.
    + intros t [[<-|[]]|[<-|[<-|[]]]]; cbn; lia.
    + intros _ a b v w. unfold same. apply eq_fn_spec.
    + intros E. vm_compute in E. discriminate E.
  - intros r. apply filter_spec.
  - intros o i. reflexivity.
  - cbn. auto.
  - split; [cbn; lia|repeat constructor].
  - exists out. split; [exact E|]. split; [vm_compute in E; injection E as <-; reflexivity|exact U].
Qed.

(* SELECT x, (SELECT COUNT(c) FROM t2 WHERE t2.k > t1.k) FROM t1 *)
Definition list_node : apply := Apply 3 ALeft [0] [1; 2] [] None None false false.
Definition list_sub : row -> list row := below false count_fn greater_k rows2.
Example C77_select_list_applies : exists out rest, arun list_node (store list_node list_sub [] rows1) rows1 (repeat 2 16) = Rows out /\
  Permutation (map (fun r => (alone 3 [0] r, get_value r 2 0)) out ++ rest)
    (map (fun o => (alone 3 [0] o, count_fn (agg_values 3 [0] [1; 2] (is_satisfy_filter greater_k) (fun r => col r c2) rows2 o))) rows1) /\
  (rest = [] \/ exists k, ap_limit list_node = Some k /\ k <= length out).
Proof.
  apply (C77_select_list list_node 2 count_fn (fun r => col r c2) greater_k same (is_satisfy_filter greater_k) rows2 rows1); auto using store_supplies.
  - split.
    + intros t [<-|[]] [E|[E|[]]]; discriminate.
    + intros t [[<-|[]]|[<-|[<-|[]]]]; cbn; lia.
    + intros _ a b v w. unfold same. apply eq_fn_spec.
    + discriminate.
  - intros k E. discriminate E.
  - intros r. apply filter_spec.
  - cbn. auto.
  - split; [cbn; lia|]. repeat constructor.
Qed.
