(* What a subquery means in SQL, without the plan that computes it. *)
From Coq Require Import List Bool Arith.
Import ListNotations.

(* ---- three-valued logic: None is NULL (unknown) ---- *)

Definition not3 (a : option bool) : option bool := option_map negb a.
Definition and3 (a b : option bool) : option bool :=
  match a, b with
  | Some false, _ | _, Some false => Some false
  | Some true, Some true => Some true
  | _, _ => None
  end.
Definition or3 (a b : option bool) : option bool := not3 (and3 (not3 a) (not3 b)).

(* ---- comparisons of nullable values ---- *)

Inductive cop := OpEq | OpNe | OpGt | OpGe | OpLt | OpLe.
Inductive quantifier := QAny | QAll.

Record total_order {V} (cmp : V -> V -> comparison) : Prop := {
  cmp_eq : forall a b, cmp a b = Eq <-> a = b;
  cmp_opp : forall a b, cmp b a = CompOpp (cmp a b);
  cmp_lt : forall a b c, cmp a b = Lt -> cmp b c = Lt -> cmp a c = Lt }.

Section Spec.
Context {V : Type}.
Variable cmp : V -> V -> comparison.

Definition decide_op (op : cop) (c : comparison) : bool :=
  match op, c with
  | OpEq, Eq | OpNe, Lt | OpNe, Gt | OpGt, Gt | OpGe, Gt | OpGe, Eq | OpLt, Lt | OpLe, Lt | OpLe, Eq => true
  | _, _ => false
  end.
(* x op y *)
Definition compare3 (op : cop) (x y : option V) : option bool :=
  match x, y with Some a, Some b => Some (decide_op op (cmp a b)) | _, _ => None end.

(* x op ANY (vs), x op ALL (vs); x IN (vs) is x = ANY (vs) and x NOT IN (vs) is x <> ALL (vs) *)
Definition any3 (op : cop) (x : option V) (vs : list (option V)) : option bool :=
  fold_right (fun v => or3 (compare3 op x v)) (Some false) vs.
Definition all3 (op : cop) (x : option V) (vs : list (option V)) : option bool :=
  fold_right (fun v => and3 (compare3 op x v)) (Some true) vs.
Definition quantified (op : cop) (q : quantifier) : option V -> list (option V) -> option bool :=
  match q with QAny => any3 op | QAll => all3 op end.

(* a subquery used as a value: NULL if it has no row, an error if it has several *)
Definition scalar (vs : list (option V)) : option (option V) :=
  match vs with [] => Some None | [v] => Some v | _ => None end.

(* MIN and MAX of the values that are not NULL; NULL if there is none *)
Definition is_min (vs : list (option V)) (m : option V) : Prop :=
  match m with
  | Some a => In (Some a) vs /\ forall b, In (Some b) vs -> cmp a b <> Gt
  | None => forall b, ~ In (Some b) vs
  end.
Definition is_max (vs : list (option V)) (m : option V) : Prop :=
  match m with
  | Some a => In (Some a) vs /\ forall b, In (Some b) vs -> cmp a b <> Lt
  | None => forall b, ~ In (Some b) vs
  end.
End Spec.

Definition no_nulls {V} (vs : list (option V)) : Prop := Forall (fun v => v <> None) vs.
(* LIMIT k *)
Definition limited {A} (k : option nat) (rows : list A) : list A := match k with Some n => firstn n rows | None => rows end.
