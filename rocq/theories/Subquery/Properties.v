(* C74: predicates with subqueries that do not refer to the outer query.
   C75: SELECT MIN(c) and MAX(c). *)
From Coq Require Import List Bool Arith ZArith.
From Verif Require Import Subquery.Spec Subquery.Model Subquery.Proofs.
Import ListNotations.
Local Open Scope Z_scope.

Lemma Z_order : total_order Z.compare.
Proof.
  split.
  - apply Z.compare_eq_iff.
  - intros a b. apply Z.compare_antisym.
  - intros a b c. rewrite !Z.compare_lt_iff. apply Z.lt_trans.
Qed.
Definition sq (rows : list (option Z)) : subquery Z := Sub ShColumn false None rows.

(* x IN (subquery) has its SQL value if the subquery has a row, and is TRUE when it should be *)
Theorem C74_in : forall V (cmp : V -> V -> comparison) s x,
  let rows := limited (sq_limit s) (sq_rows s) in
  (in_subquery cmp false s x = Some true <-> any3 cmp OpEq x rows = Some true) /\
  (rows <> [] -> in_subquery cmp false s x = any3 cmp OpEq x rows).
Proof. intros. split; [apply in_subquery_true|apply in_subquery_in]. Qed.
Print Assumptions C74_in.
Example C74_in_case : in_subquery Z.compare false (Sub ShColumn true (Some 2%nat) [Some 3; Some 5; Some 7]) (Some 5) = Some true /\
                      in_subquery Z.compare false (Sub ShColumn true (Some 2%nat) [Some 3; None; Some 7]) (Some 7) = None.
Proof. split; reflexivity. Qed.

(* x NOT IN (subquery) has its SQL value if the subquery has a row *)
Theorem C74_not_in : forall V (cmp : V -> V -> comparison) s x,
  let rows := limited (sq_limit s) (sq_rows s) in
  rows <> [] -> in_subquery cmp true s x = all3 cmp OpNe x rows.
Proof. intros. now apply in_subquery_not_in. Qed.
Print Assumptions C74_not_in.
Example C74_not_in_case : in_subquery Z.compare true (sq [Some 3; Some 5]) (Some 4) = Some true.
Proof. reflexivity. Qed.

(* over no rows x NOT IN is NULL, so no row of the outer query passes; SQL says TRUE *)
Theorem C74_not_in_empty_refuted : exists s : subquery Z,
  forall x, all3 Z.compare OpNe x (limited (sq_limit s) (sq_rows s)) = Some true /\ in_subquery Z.compare true s x = None.
Proof. exists (sq []). intros [x|]; split; reflexivity. Qed.
Print Assumptions C74_not_in_empty_refuted.

(* [NOT] EXISTS (subquery) *)
Theorem C74_exists : forall V is_not (s : subquery V),
  exists_subquery is_not s = true <->
  (if is_not then limited (sq_limit s) (sq_rows s) = [] else limited (sq_limit s) (sq_rows s) <> []).
Proof. intros. apply exists_subquery_spec. Qed.
Print Assumptions C74_exists.
Example C74_exists_case : exists_subquery false (sq [None]) = true.
Proof. reflexivity. Qed.

(* a subquery as an operand of a comparison, and in the SELECT list *)
Theorem C74_scalar : forall V (cmp : V -> V -> comparison) op s x,
  compare_subquery cmp op s x = option_map (compare3 cmp op x) (scalar (limited (sq_limit s) (sq_rows s))) /\
  select_subquery s = scalar (limited (sq_limit s) (sq_rows s)).
Proof. intros. split; [apply compare_subquery_spec|apply select_subquery_spec]. Qed.
Print Assumptions C74_scalar.
Example C74_scalar_case : compare_subquery Z.compare OpLt (sq [Some 3]) (Some 2) = Some (Some true) /\
                          compare_subquery Z.compare OpLt (sq [Some 3; Some 4]) (Some 2) = None.
Proof. split; reflexivity. Qed.

(* x = ANY and x <> ALL have their SQL value *)
Theorem C74_eq_any_ne_all : forall V (cmp : V -> V -> comparison) zero s x,
  let rows := limited (sq_limit s) (sq_rows s) in
  quantified_subquery cmp zero OpEq QAny s x = any3 cmp OpEq x rows /\
  quantified_subquery cmp zero OpNe QAll s x = all3 cmp OpNe x rows.
Proof. intros. split; [apply eq_any_spec|apply ne_all_spec]. Qed.
Print Assumptions C74_eq_any_ne_all.
Example C74_eq_any_case : quantified_subquery Z.compare 0 OpEq QAny (sq [Some 3; None]) (Some 3) = Some true /\
                          quantified_subquery Z.compare 0 OpNe QAll (sq []) (Some 3) = Some true.
Proof. split; reflexivity. Qed.

(* x = ALL is TRUE when it should be if the subquery gives no NULL; x <> ANY has its SQL value if
   the subquery gives one value only *)
Theorem C74_eq_all_ne_any_partial : forall V (cmp : V -> V -> comparison) zero s x, total_order cmp ->
  let rows := limited (sq_limit s) (sq_rows s) in
  (no_nulls rows -> (quantified_subquery cmp zero OpEq QAll s x = Some true <-> all3 cmp OpEq x rows = Some true)) /\
  (forall v, (forall w, In w rows -> w = v) -> quantified_subquery cmp zero OpNe QAny s x = any3 cmp OpNe x rows).
Proof. intros V cmp zero s x T. split; [intros; now apply eq_all_true|intros v; now apply ne_any_same]. Qed.
Print Assumptions C74_eq_all_ne_any_partial.
Example C74_eq_all_case : quantified_subquery Z.compare 0 OpEq QAll (sq [Some 3; Some 3]) (Some 3) = Some true /\
                          quantified_subquery Z.compare 0 OpNe QAny (sq [Some 3; Some 3]) (Some 4) = Some true.
Proof. split; reflexivity. Qed.

(* x <> ANY over two values is FALSE; SQL says TRUE for every x *)
Theorem C74_ne_any_refuted : exists s : subquery Z,
  forall x, any3 Z.compare OpNe (Some x) (limited (sq_limit s) (sq_rows s)) = Some true /\
            quantified_subquery Z.compare 0 OpNe QAny s (Some x) = Some false.
Proof.
  exists (sq [Some 1; Some 2]). intros x. split; [|reflexivity]. apply any3_true.
  destruct (Z.eq_dec x 1) as [->|N].
  - exists (Some 2). split; [right; now left|reflexivity].
  - exists (Some 1). split; [now left|]. cbn. destruct (x ?= 1) eqn:E; cbn; [apply Z.compare_eq in E; congruence|reflexivity|reflexivity].
Qed.
Print Assumptions C74_ne_any_refuted.

(* x = ALL (0, NULL) is TRUE for 0: the NULL is compared as a zero.  SQL says NULL *)
Theorem C74_eq_all_null_refuted : exists (s : subquery Z) x,
  all3 Z.compare OpEq x (limited (sq_limit s) (sq_rows s)) = None /\
  quantified_subquery Z.compare 0 OpEq QAll s x = Some true.
Proof. exists (sq [Some 0; None]), (Some 0). split; reflexivity. Qed.
Print Assumptions C74_eq_all_null_refuted.

(* >, >=, < and <= ANY are TRUE when they should be: without LIMIT in the subquery, and without
   NULL in it if it is a plain column compared with its smallest value *)
Theorem C74_ordered_any_partial : forall V (cmp : V -> V -> comparison) zero op s x, total_order cmp ->
  op = OpGt \/ op = OpGe \/ op = OpLt \/ op = OpLe -> sq_limit s = None ->
  (op = OpGt \/ op = OpGe -> sq_shape s = ShColumn -> sq_order s = false -> no_nulls (sq_rows s)) ->
  (quantified_subquery cmp zero op QAny s x = Some true <-> any3 cmp op x (sq_rows s) = Some true).
Proof.
  intros V cmp zero op s x T O L N. apply any_true; auto. intros (F & A & B). apply N; auto.
  destruct O as [->|[->|[->| ->]]]; auto; discriminate.
Qed.
Print Assumptions C74_ordered_any_partial.
Example C74_ordered_any_case :
  quantified_subquery Z.compare 0 OpGt QAny (sq [Some 5; Some 2; Some 9]) (Some 3) = Some true /\
  quantified_subquery Z.compare 0 OpLe QAny (sq [Some 5; None; Some 9]) (Some 9) = Some true.
Proof. split; reflexivity. Qed.

(* >, >=, < and <= ALL are TRUE when they should be: without LIMIT and NULL in the subquery, and
   for < and <= if it has a row or aggregates *)
Theorem C74_ordered_all_partial : forall V (cmp : V -> V -> comparison) zero op s x, total_order cmp ->
  op = OpGt \/ op = OpGe \/ op = OpLt \/ op = OpLe -> sq_limit s = None -> no_nulls (sq_rows s) ->
  sq_rows s <> [] \/ op = OpGt \/ op = OpGe \/ sq_shape s = ShAgg ->
  (quantified_subquery cmp zero op QAll s x = Some true <-> all3 cmp op x (sq_rows s) = Some true).
Proof. intros. now apply all_true. Qed.
Print Assumptions C74_ordered_all_partial.
Example C74_ordered_all_case :
  quantified_subquery Z.compare 0 OpGt QAll (sq [Some 5; Some 2; Some 9]) (Some 10) = Some true /\
  quantified_subquery Z.compare 0 OpGt QAll (sq [Some 5; Some 2; Some 9]) (Some 9) = Some false /\
  quantified_subquery Z.compare 0 OpGe QAll (sq []) (Some 9) = Some true.
Proof. repeat split; reflexivity. Qed.

(* 5 > ANY (1, NULL) is NULL: the smallest value is looked up with ORDER BY, where NULL comes first *)
Theorem C74_gt_any_null_refuted : exists (s : subquery Z) x,
  any3 Z.compare OpGt x (limited (sq_limit s) (sq_rows s)) = Some true /\
  quantified_subquery Z.compare 0 OpGt QAny s x = None.
Proof. exists (sq [Some 1; None]), (Some 5). split; reflexivity. Qed.
Print Assumptions C74_gt_any_null_refuted.
(* x < ALL over no rows is NULL; SQL says TRUE *)
Theorem C74_lt_all_empty_refuted : exists s : subquery Z,
  forall x, all3 Z.compare OpLt x (limited (sq_limit s) (sq_rows s)) = Some true /\
            quantified_subquery Z.compare 0 OpLt QAll s x = None.
Proof. exists (sq []). intros [x|]; split; reflexivity. Qed.
Print Assumptions C74_lt_all_empty_refuted.
(* 5 > ALL (1, NULL) and 5 > ALL (NULL) are TRUE; SQL says NULL *)
Theorem C74_gt_all_null_refuted : exists (s s' : subquery Z) x,
  all3 Z.compare OpGt x (limited (sq_limit s) (sq_rows s)) = None /\
  quantified_subquery Z.compare 0 OpGt QAll s x = Some true /\
  all3 Z.compare OpGt x (limited (sq_limit s') (sq_rows s')) = None /\
  quantified_subquery Z.compare 0 OpGt QAll s' x = Some true.
Proof. exists (sq [Some 1; None]), (sq [None]), (Some 5). repeat split; reflexivity. Qed.
Print Assumptions C74_gt_all_null_refuted.
(* LIMIT in the subquery has no effect on > ALL *)
Theorem C74_limit_refuted : exists (s : subquery Z) x,
  all3 Z.compare OpGt x (limited (sq_limit s) (sq_rows s)) = Some true /\
  quantified_subquery Z.compare 0 OpGt QAll s x = Some false.
Proof. exists (Sub ShColumn true (Some 1%nat) [Some 1; Some 9]), (Some 5). split; reflexivity. Qed.
Print Assumptions C74_limit_refuted.

(* SELECT MIN(e) and MAX(e) without GROUP BY: one row with the extreme value of those that are
   not NULL; for MIN of a column, if none is NULL *)
Theorem C75_extreme_partial : forall V (cmp : V -> V -> comparison) column vs, total_order cmp ->
  (exists m, select_extreme cmp EMax column None vs = [m] /\ is_max cmp vs m) /\
  ((column = true -> no_nulls vs) -> exists m, select_extreme cmp EMin column None vs = [m] /\ is_min cmp vs m).
Proof.
  intros V cmp column vs T. split.
  - destruct (select_extreme_spec cmp T EMax column vs) as (m & E & M); [discriminate|]. now exists m.
  - intros N. destruct (select_extreme_spec cmp T EMin column vs) as (m & E & M); [auto|]. now exists m.
Qed.
Print Assumptions C75_extreme_partial.
Example C75_extreme_case :
  select_extreme Z.compare EMax true None [Some 3; None; Some 8; Some 1] = [Some 8] /\
  select_extreme Z.compare EMin true None [Some 3; Some 8; Some 1] = [Some 1] /\
  select_extreme Z.compare EMin false None [Some 3; None; Some 8; Some 1] = [Some 1] /\
  select_extreme Z.compare EMin true None [] = [None].
Proof. repeat split; reflexivity. Qed.

(* MIN of a column is NULL as soon as a row has NULL in it *)
Theorem C75_min_refuted : forall V (cmp : V -> V -> comparison) vs a, total_order cmp ->
  In None vs -> In (Some a) vs ->
  select_extreme cmp EMin true None vs = [None] /\ ~ is_min cmp vs None.
Proof.
  intros V cmp vs a T N A. split; [now apply minmax_min_null|]. intros M. now apply (M a).
Qed.
Print Assumptions C75_min_refuted.
Example C75_min_case : select_extreme Z.compare EMin true None [Some 3; None] = [None].
Proof. reflexivity. Qed.
(* LIMIT 0 of the statement is lost *)
Theorem C75_limit_refuted : exists (vs : list (option Z)),
  select_extreme Z.compare EMax true (Some 0%nat) vs = [Some 8].
Proof. exists [Some 3; Some 8]. reflexivity. Qed.
Print Assumptions C75_limit_refuted.
