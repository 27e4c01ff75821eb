(* Derived tables, UNION and SELECT DISTINCT. *)
From Coq Require Import List ZArith Bool Arith.
From Verif Require Import Derived.Spec Derived.Model Derived.Groups Derived.Push Derived.Plan Derived.Distinct.
Import ListNotations.

(* Building blocks of the examples: columns and conditions of a table numbered 0. *)
Definition n (z : Z) : val := VInt z.
Definition rec_of (vs : list val) : nat -> nat -> val := fun t s => if t =? 0 then nth s vs VNull else VNull.
Definition eq_fn (vs : list val) : val :=
  match vs with
  | [VInt a; VInt b] => VInt (if (a =? b)%Z then 1 else 0)
  | _ => VNull
  end.
Definition equals (a b : expr) : expr := EFn eq_fn [a; b].
Definition count_all : list row -> val := fun g => VInt (Z.of_nat (length g)).
Definition count_distinct (e : expr) : list row -> val :=
  fun g => VInt (Z.of_nat (length (distinct (map (fun r => [eval r e]) g)))).
Definition row_number (es : list expr) : window :=
  Win es (fun p => map (fun i => (i, VInt (Z.of_nat (S i)))) (seq 0 (length p))).
Definition count_over (es : list expr) : window :=
  Win es (fun p => map (fun i => (i, VInt (Z.of_nat (length p)))) (seq 0 (length p))).

(* C82: the answer to a statement with derived tables and UNIONs, nested in any way, is what the
   statement means: conditions on a derived table keep exactly the rows of the subquery on which they are true. *)
Theorem C82_derived_tables_mean_their_rows : forall q rows,
  answer q = Some rows ->
  all_selects no_bare_condition q ->
  inner_selects no_constant_beside_total q ->
  inner_selects full_group_by q ->
  all_selects plain_distinct q ->
  all_unions plain_union q ->
  rows = meaning q.
Proof. exact answer_ok. Qed.
Print Assumptions C82_derived_tables_mean_their_rows.

(* C82: statements that are well formed are answered. *)
Theorem C82_well_formed_is_answered : forall q, well_formed q -> exists rows, answer q = Some rows.
Proof. intros q W. destruct (well_formed_planned q W) as (p & E & _). unfold answer. rewrite E. cbn. eauto. Qed.
Print Assumptions C82_well_formed_is_answered.

(* A statement with a condition that goes below GROUP BY, a window and into both branches of a UNION. *)
Definition grouped_block (rows : list (nat -> nat -> val)) : stmt :=
  Select (Table rows)
    (Sel false [] [ERef 0 0] [count_all] [] [] [row_number [ERef 0 0]] [] None [ERef 0 0; EAgg 0; EWin 0]).
Definition example_rows := map rec_of [[n 1; n 5]; [n 2; n 6]; [n 1; n 7]].
Definition example : stmt :=
  Select (Derived 1 (Union (grouped_block example_rows) [(false, grouped_block example_rows)] [10; 11; 12] [(11, false)] None))
    (Sel false [equals (ERef 1 0) (ELit (n 1))] [] [] [] [] [] [] None [ERef 1 0; ERef 1 1; ERef 1 2]).
Example C82_example :
  answer example = Some [[n 1; n 2; n 1]; [n 1; n 2; n 1]] /\ well_formed example /\
  all_selects no_bare_condition example /\ inner_selects no_constant_beside_total example /\
  inner_selects full_group_by example /\ all_selects plain_distinct example /\ all_unions plain_union example /\
  going 1 (match plan_of (Union (grouped_block example_rows) [(false, grouped_block example_rows)] [10; 11; 12] [(11, false)] None)
           with Some p => p | None => PUni [] 0 0 false [] None end)
        [equals (ERef 1 0) (ELit (n 1))] = [equals (ERef 0 0) (ELit (n 1))].
Proof.
  unfold no_bare_condition, no_constant_beside_total, full_group_by, plain_distinct, plain_union, example, grouped_block;
    cbn -[answer going].
  repeat match goal with |- _ /\ _ => split end; auto; try discriminate; try reflexivity;
    try (intros; cbn in *; tauto || discriminate); try (intros; congruence).
  - intros k asc [E|[]]. injection E as <- _. auto.
  - intros e [<-|[]]. exact I.
  - repeat constructor; cbn; intuition discriminate.
Qed.

(* C82, refuted: a condition that is just a column is pushed below windows (and GROUP BY) that
   it changes: SELECT r FROM (SELECT flag, ROW_NUMBER() OVER (PARTITION BY g) r FROM t) x WHERE flag. *)
Definition bare_stmt : stmt :=
  Select (Derived 1 (Select (Table (map rec_of [[n 1; n 0]; [n 1; n 1]]))
                       (Sel false [] [] [] [] [] [row_number [ERef 0 0]] [] None [ERef 0 1; EWin 0])))
    (Sel false [ERef 1 0] [] [] [] [] [] [] None [ERef 1 1]).
Theorem C82_bare_column_refuted : exists q rows,
  answer q = Some rows /\ rows <> meaning q /\ well_formed q /\
  inner_selects no_constant_beside_total q /\ inner_selects full_group_by q /\
  all_selects plain_distinct q /\ all_unions plain_union q.
Proof.
  exists bare_stmt, [[n 1]]. unfold no_constant_beside_total, full_group_by, plain_distinct, plain_union.
  split; [reflexivity|]. split; [vm_compute; discriminate|]. cbn.
  repeat match goal with |- _ /\ _ => split end; auto; try discriminate; intros; cbn in *; tauto || discriminate || congruence.
Qed.
Print Assumptions C82_bare_column_refuted.

(* C82, refuted: a condition on a constant column is pushed below an aggregation without GROUP BY, which
   gives a row all the same: SELECT * FROM (SELECT 1 kind, COUNT( * ) c FROM t UNION ALL SELECT 2, COUNT( * ) FROM t) x
   WHERE kind = 2. *)
Definition total (k : Z) : stmt :=
  Select (Table (map rec_of [[n 7]; [n 8]])) (Sel false [] [] [count_all] [] [] [] [] None [ELit (n k); EAgg 0]).
Definition const_stmt : stmt :=
  Select (Derived 1 (Union (total 1) [(false, total 2)] [10; 11] [] None))
    (Sel false [equals (ERef 1 0) (ELit (n 2))] [] [] [] [] [] [] None [ERef 1 0; ERef 1 1]).
Theorem C82_constant_beside_total_refuted : exists q rows,
  answer q = Some rows /\ meaning q = [[n 2; n 2]] /\ rows = [[n 1; n 0]; [n 2; n 2]] /\ well_formed q /\
  all_selects no_bare_condition q /\ inner_selects full_group_by q /\
  all_selects plain_distinct q /\ all_unions plain_union q.
Proof.
  exists const_stmt, [[n 1; n 0]; [n 2; n 2]]. unfold no_bare_condition, full_group_by, plain_distinct, plain_union.
  split; [reflexivity|]. split; [reflexivity|]. split; [reflexivity|]. cbn.
  repeat match goal with |- _ /\ _ => split end; auto; try discriminate; try (intros; cbn in *; tauto || discriminate || congruence).
  - intros e [<-|[]]. exact I.
  - repeat constructor; cbn; intuition discriminate.
Qed.
Print Assumptions C82_constant_beside_total_refuted.

(* C82, refuted: with a DISTINCT aggregate its argument counts as a column of GROUP BY:
   SELECT * FROM (SELECT a, b, COUNT(DISTINCT b) FROM t GROUP BY a) x WHERE b = 1 counts 1. *)
Definition dcount_stmt : stmt :=
  Select (Derived 1 (Select (Table (map rec_of [[n 4; n 1]; [n 4; n 2]]))
     (Sel false [] [ERef 0 0] [count_distinct (ERef 0 1)] [ERef 0 1] [] [] [] None [ERef 0 0; ERef 0 1; EAgg 0])))
    (Sel false [equals (ERef 1 1) (ELit (n 1))] [] [] [] [] [] [] None [ERef 1 0; ERef 1 1; ERef 1 2]).
Theorem C82_distinct_argument_refuted : exists q rows,
  answer q = Some rows /\ meaning q = [[n 4; n 1; n 2]] /\ rows = [[n 4; n 1; n 1]] /\ well_formed q /\
  all_selects no_bare_condition q /\ inner_selects no_constant_beside_total q /\
  all_selects plain_distinct q /\ all_unions plain_union q.
Proof.
  exists dcount_stmt, [[n 4; n 1; n 1]]. unfold no_bare_condition, no_constant_beside_total, plain_distinct, plain_union.
  split; [reflexivity|]. split; [reflexivity|]. split; [reflexivity|]. cbn.
  repeat match goal with |- _ /\ _ => split end; auto; try discriminate; try (intros; cbn in *; tauto || discriminate || congruence).
  intros e [<-|[]]. exact I.
Qed.
Print Assumptions C82_distinct_argument_refuted.

(* C83: the answer to a UNION is made of the answers to its SELECTs: from left to right, UNION ALL appends the
   rows and UNION appends them and keeps one of equal rows; then ORDER BY and LIMIT.  It holds whatever the SELECTs are. *)
Theorem C83_union_of_answers : forall first rest names order limit rows a others,
  answer (Union first rest names order limit) = Some rows ->
  answer first = Some a ->
  Forall2 (fun x b => answer (snd x) = Some (snd b) /\ fst x = fst b) rest others ->
  plain_union (map fst rest) names ->
  rows = cut limit (sort (fun u v => keys_le (order_vals names order u) (order_vals names order v))
           (fold_left (fun acc (x : bool * list (list val)) =>
              let both := acc ++ snd x in if fst x then distinct both else both) others a)).
Proof. exact union_answer. Qed.
Print Assumptions C83_union_of_answers.

(* C83: what comes of it for the rows: UNION ALL keeps the numbers of equal rows, UNION one of each. *)
Theorem C83_union_rows : forall first rest names limit rows a others,
  answer (Union first rest names [] limit) = Some rows -> limit = None ->
  answer first = Some a ->
  Forall2 (fun x b => answer (snd x) = Some (snd b) /\ fst x = fst b) rest others ->
  plain_union (map fst rest) names ->
  (Forall (fun b => b = false) (map fst rest) -> Permutation.Permutation rows (a ++ concat (map snd others))) /\
  (In true (map fst rest) -> NoDup rows /\ forall v, In v rows <-> In v a \/ exists l, In l (map snd others) /\ In v l).
Proof.
  intros first rest names limit rows a others A -> AF AO PU.
  pose proof (union_answer _ _ _ _ _ _ _ _ A AF AO PU) as E. cbn [cut] in E. subst rows.
  assert (EO : map fst others = map fst rest).
  { clear - AO. induction AO as [|x b rest others [_ HF] AO IH]; cbn; auto. f_equal; auto. }
  split.
  - intros F. rewrite sort_perm. rewrite union_fold_all by now rewrite EO. reflexivity.
  - intros T. rewrite (union_fold_ok others a names) by now rewrite EO.
    assert (U : union_distinct (map fst others) = true).
    { rewrite EO. destruct PU as [[F|(ops' & ->)] _]; [|apply union_distinct_true].
      rewrite Forall_forall in F. apply F in T. discriminate. }
    rewrite U.
    assert (SP := sort_perm (fun u v => keys_le (order_vals names [] u) (order_vals names [] v))
                    (distinct (a ++ concat (map snd others)))).
    split.
    + eapply Permutation.Permutation_NoDup; [symmetry; exact SP|apply distinct_nodup].
    + intros v. transitivity (In v (distinct (a ++ concat (map snd others)))).
      * split; apply Permutation.Permutation_in; [exact SP|symmetry; exact SP].
      * rewrite distinct_in, in_app_iff, in_concat. reflexivity.
Qed.
Print Assumptions C83_union_rows.

Definition one (k : Z) : stmt := Select (Table [rec_of [n k]]) (Sel false [] [] [] [] [] [] [] None [ERef 0 0]).
Example C83_example :
  answer (Union (one 2) [(false, one 1); (true, one 2)] [10] [(10, true)] (Some (0, 5))) = Some [[n 1]; [n 2]] /\
  plain_union [false; true] [10] /\
  answer (Union (one 2) [(false, one 1); (false, one 2)] [10] [(10, true)] (Some (0, 2))) = Some [[n 1]; [n 2]].
Proof.
  split; [reflexivity|]. split; [|reflexivity]. split; [right; now exists [false]|]. repeat constructor; cbn; tauto.
Qed.

(* C83, refuted: UNION ALL after UNION: SELECT 1 UNION SELECT 1 UNION ALL SELECT 1 has two rows. *)
Theorem C83_all_after_distinct_refuted : exists q,
  well_formed q /\ meaning q = [[n 1]; [n 1]] /\ answer q = Some [[n 1]].
Proof.
  exists (Union (one 1) [(true, one 1); (false, one 1)] [10] [] None). cbn.
  repeat match goal with |- _ /\ _ => split end; auto; try discriminate; try (intros; cbn in *; tauto || discriminate).
Qed.
Print Assumptions C83_all_after_distinct_refuted.

(* C84: SELECT DISTINCT gives every row of the SELECT without DISTINCT, each once; with LIMIT, some of them. *)
Theorem C84_distinct_each_row_once : forall src d a b,
  s_distinct d = true ->
  answer (Select src d) = Some a -> answer (Select src (bare_select d)) = Some b ->
  all_selects no_bare_condition (Select src d) -> source_selects no_constant_beside_total src ->
  source_selects full_group_by src -> all_selects plain_distinct (Select src d) -> source_unions plain_union src ->
  NoDup a /\ (forall v, In v a -> In v b) /\ (s_limit d = None -> forall v, In v b -> In v a).
Proof. exact distinct_answer. Qed.
Print Assumptions C84_distinct_each_row_once.

Example C84_example :
  let d := Sel true [] [] [] [] [] [] [(ERef 0 0, false)] None [ERef 0 0] in
  answer (Select (Table (map rec_of [[n 1]; [n 2]; [n 1]])) d) = Some [[n 2]; [n 1]] /\ plain_distinct d.
Proof. split; [reflexivity|]. split; [reflexivity|]. intros e []. Qed.

(* C84, refuted: rows are made distinct before the window functions are computed:
   SELECT DISTINCT g, COUNT( * ) OVER (PARTITION BY g) FROM t counts 1 for every g. *)
Theorem C84_distinct_with_window_refuted : exists q,
  well_formed q /\ all_selects no_bare_condition q /\ meaning q = [[n 1; n 2]] /\ answer q = Some [[n 1; n 1]].
Proof.
  exists (Select (Table (map rec_of [[n 1]; [n 1]]))
           (Sel true [] [] [] [] [] [count_over [ERef 0 0]] [] None [ERef 0 0; EWin 0])).
  unfold no_bare_condition. cbn.
  repeat match goal with |- _ /\ _ => split end; auto; try discriminate; try (intros; cbn in *; tauto || discriminate).
Qed.
Print Assumptions C84_distinct_with_window_refuted.
