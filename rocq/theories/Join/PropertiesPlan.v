(* C67: pushing conditions down and turning outer joins into inner ones keeps the rows. *)
From Coq Require Import List ZArith Bool Arith Lia Sorting.Permutation.
From Verif Require Import Common.Bytes Key.Model Join.Model Join.Spec Join.Plan Join.PlanSpec Join.Push Join.PushTop.
Import ListNotations.
Local Open Scope nat_scope.

Theorem C67_pushdown_keeps_rows n p : plan_ok n p -> Permutation (rows n (pushdown p)) (rows n p).
Proof. exact (pushdown_rows n p). Qed.
Print Assumptions C67_pushdown_keeps_rows.

Theorem C67_conversion_keeps_rows_under_conditions n p es : plan_ok n p -> (forall e, In e es -> usual e) ->
  Permutation (filter (all_true es) (rows n (convert_to_inner_join es p))) (filter (all_true es) (rows n p)).
Proof. exact (convert_keeps n p es). Qed.
Print Assumptions C67_conversion_keeps_rows_under_conditions.

Theorem C67_pushdown_with_rest n p es : plan_ok n p -> (forall e, In e es -> usual e /\ about (plan_ids p) e) ->
  let (p', rest) := predicate_pushdown (height p) false p es in
  Permutation (filter (all_true rest) (rows n p')) (filter (all_true es) (rows n p)).
Proof.
  intros Ok U. pose proof (pushdown_keeps n (height p) p false es (le_n _) Ok U) as X. destruct (predicate_pushdown _ _ _ _) as [p' rest]. apply X.
Qed.
Print Assumptions C67_pushdown_with_rest.

(* ---- a plan that meets the hypotheses ---- *)

Definition eq_vals (l : list value) : option value :=
  match l with [VNum a; VNum b] => Some (of_bool (a =? b)%Z) | [VStr a; VStr b] => Some (of_bool (KV.beqb a b)) | _ => Some (of_bool false) end.
Definition EEq a b := EFn eq_vals [a; b].
Definition num (z : Z) := EConst (Some (VNum z)).
Definition not_val (l : list value) : option value := match l with [v] => Some (of_bool (negb (truth v))) | _ => None end.
Definition is_null_val (l : list (option value)) : option value := match l with [Some _] => Some (of_bool false) | _ => Some (of_bool true) end.
Definition tup (a b : Z) : tuple := [Some (VNum a); Some (VNum b)].

(* t0 FULL JOIN (t1 LEFT JOIN t2 ON t1.1 = t2.0) ON t0.0 = t1.0 WHERE t1.1 = 5 AND ... : the
   FULL JOIN becomes a RIGHT JOIN, both conditions go below it *)
Definition usual_plan : plan :=
  Filter [EEq (ESlot 1 1) (num 5)%Z; ENull is_null_val [ESlot 2 1]]
    (JoinOf JFull [EEq (ESlot 0 0) (ESlot 1 0)]
      (Scan 0 [tup 1 10; tup 2 20]%Z)
      (JoinOf JLeft [EEq (ESlot 1 1) (ESlot 2 0)] (Scan 1 [tup 1 5; tup 3 5; tup 4 6]%Z) (Scan 2 [tup 6 7]%Z))).

Ltac plain_eq := split; [discriminate|right; apply plain_strict; repeat constructor].
Example usual_plan_ok : plan_ok 3 usual_plan.
Proof.
  assert (EQ : forall t s u v, usual (EEq (ESlot t s) (ESlot u v))) by (intros; plain_eq).
  cbn. split.
  - split; [lia|]. split; [split; [lia|]; split; [lia|]; split; [intros t [<-|[]] [X|[]]; discriminate X|]; split|].
    + intros e [<-|[]]. split; [apply EQ|]. intros t [<-|[<-|[]]]; cbn; auto.
    + intros e [<-|[]] A. specialize (A 2 ltac:(cbn; auto)). cbn in A. lia.
    + split; [intros t [<-|[]] [X|[X|[]]]; discriminate X|]. split; [intros e [<-|[]]; split; [apply EQ|intros t [<-|[<-|[]]]; cbn; auto]|].
      split; intros e [<-|[]] A; [specialize (A 1 ltac:(cbn; auto))|specialize (A 0 ltac:(cbn; auto))]; cbn in A; lia.
  - intros e [<-|[<-|[]]]; (split; [|intros t [<-|[]]; cbn; auto]); [plain_eq|]. split; [discriminate|left; constructor].
Qed.
Example usual_plan_rows : rows 3 usual_plan = [[Some (tup 1 10); Some (tup 1 5); None]; [None; Some (tup 3 5); None]]%Z.
Proof. vm_compute. reflexivity. Qed.
Example usual_plan_pushed : exists on l r, pushdown usual_plan = Filter [] (JoinOf JRight on l r).
Proof. do 3 eexists. cbv -[eq_vals of_bool is_null_val]. reflexivity. Qed.
Example usual_plan_pushed_rows : rows 3 (pushdown usual_plan) = [[Some (tup 1 10); Some (tup 1 5); None]; [None; Some (tup 3 5); None]]%Z.
Proof. vm_compute. reflexivity. Qed.

(* ---- where the rows change ---- *)

(* (t0 LEFT JOIN t1 ON t1.0 = t0.0) LEFT JOIN t2 ON t2.0 = t0.0 AND t1.1 = 1: the condition on
   t1 only decides which rows of t2 match, but the first LEFT JOIN becomes INNER *)
Definition nested (rs : list tuple) : plan :=
  JoinOf JLeft [EEq (ESlot 2 0) (ESlot 0 0); EEq (ESlot 1 1) (num 1)%Z]
    (JoinOf JLeft [EEq (ESlot 1 0) (ESlot 0 0)] (Scan 0 rs) (Scan 1 [])) (Scan 2 []).
Theorem C67_on_condition_of_outer_join_refuted : forall rs, rows 3 (pushdown (nested rs)) = [] /\ rows 3 (nested rs) = map (fun t => [Some t; None; None]) rs.
Proof.
  intros rs. split.
  - cbn. induction rs as [|t q IH]; cbn; auto.
  - cbn. induction rs as [|t q IH]; cbn; [reflexivity|]. f_equal. exact IH.
Qed.
Print Assumptions C67_on_condition_of_outer_join_refuted.

(* t0 LEFT JOIN t1 ON t1.0 = t0.0 WHERE [w] *)
Definition left_where (w : expr) : plan :=
  Filter [w] (JoinOf JLeft [EEq (ESlot 1 0) (ESlot 0 0)] (Scan 0 [tup 1 0]%Z) (Scan 1 [])).
Definition left_row : row := [Some (tup 1 0)%Z; None].

(* WHERE NOT (t0.1 = 1 AND t1.1 = 1): true for a row of t0 alone, with t0.1 = 0 *)
Theorem C67_not_and_refuted :
  let p := left_where (EFn not_val [EAnd (EEq (ESlot 0 1) (num 1)%Z) (EEq (ESlot 1 1) (num 1)%Z)]) in
  rows 2 p = [left_row] /\ rows 2 (pushdown p) = [].
Proof. cbn zeta. split; vm_compute; reflexivity. Qed.
Print Assumptions C67_not_and_refuted.

(* WHERE t1.1 = 1 IS NOT TRUE: true for a row of t0 alone *)
Definition is_true_val (l : list (option value)) : option value := match l with [Some v] => Some (of_bool (truth v)) | _ => Some (of_bool false) end.
Theorem C67_is_not_true_refuted :
  let p := left_where (EFn not_val [ETol is_true_val [EEq (ESlot 1 1) (num 1)%Z]]) in
  rows 2 p = [left_row] /\ rows 2 (pushdown p) = [].
Proof. cbn zeta. split; vm_compute; reflexivity. Qed.
Print Assumptions C67_is_not_true_refuted.

(* WHERE t1.1 = 1 OR 1: true for every row *)
Theorem C67_or_constant_refuted :
  let p := left_where (EOr (EEq (ESlot 1 1) (num 1)%Z) (num 1)%Z) in
  rows 2 p = [left_row] /\ rows 2 (pushdown p) = [].
Proof. cbn zeta. split; vm_compute; reflexivity. Qed.
Print Assumptions C67_or_constant_refuted.

(* (SELECT max(..) FROM t0 LEFT JOIN t1 ON .. WHERE t0.1 = t2.1) in the fields of a query over
   t2: the condition is dropped.  [env]: the row of t2 the subquery is run for. *)
Definition subquery : plan :=
  Filter [EEq (ESlot 0 1) (ESlot 2 1)] (JoinOf JLeft [EEq (ESlot 1 0) (ESlot 0 0)] (Scan 0 [tup 1 8; tup 2 9]%Z) (Scan 1 [])).
Theorem C67_correlated_condition_dropped_refuted :
  let env : row := [None; None; Some (tup 0 9)%Z] in
  rows 3 (bind_plan [2] env subquery) = [[Some (tup 2 9)%Z; None; None]] /\
  rows 3 (bind_plan [2] env (pushdown subquery)) = [[Some (tup 1 8)%Z; None; None]; [Some (tup 2 9)%Z; None; None]].
Proof. cbn zeta. split; vm_compute; reflexivity. Qed.
Print Assumptions C67_correlated_condition_dropped_refuted.
