(* The meaning of a plan, and which plans are pushed down without a change of meaning. *)
From Coq Require Import List ZArith Bool Arith.
From Verif Require Import Common.Bytes Key.Model Join.Model Join.Spec Join.Plan.
Import ListNotations.

(* ---- the value of an expression ---- *)

Definition truth (v : value) : bool := match v with VNum z => negb (z =? 0)%Z | VStr _ => false end.
Definition of_bool (b : bool) : value := VNum (if b then 1 else 0)%Z.
Definition and3 (x y : option bool) : option bool :=
  match x, y with
  | Some false, _ | _, Some false => Some false
  | Some true, Some true => Some true
  | _, _ => None
  end.
Definition or3 (x y : option bool) : option bool :=
  match x, y with
  | Some true, _ | _, Some true => Some true
  | Some false, Some false => Some false
  | _, _ => None
  end.
Fixpoint all_some {A} (l : list (option A)) : option (list A) :=
  match l with
  | [] => Some []
  | Some x :: q => match all_some q with Some r => Some (x :: r) | None => None end
  | None :: _ => None
  end.
Fixpoint eval_expr (r : row) (e : expr) : option value :=
  match e with
  | ESlot t s => get_value r t s
  | EConst v => v
  | EFn f l => match all_some (map (eval_expr r) l) with Some vs => f vs | None => None end
  | ENull f l | ETol f l => f (map (eval_expr r) l)
  | EAnd a b => option_map of_bool (and3 (option_map truth (eval_expr r a)) (option_map truth (eval_expr r b)))
  | EOr a b => option_map of_bool (or3 (option_map truth (eval_expr r a)) (option_map truth (eval_expr r b)))
  end.
Definition is_true (e : expr) (r : row) : bool := match eval_expr r e with Some v => truth v | None => false end.
Definition all_true (es : list expr) (r : row) : bool := forallb (fun e => is_true e r) es.

(* ---- the rows of a plan: [n] tables in the query ---- *)

Definition scan_row (n t : nat) (tp : tuple) : row := map (fun i => if Nat.eqb i t then Some tp else None) (seq 0 n).
Fixpoint rows (n : nat) (p : plan) : list row :=
  match p with
  | Scan t rs => map (scan_row n t) rs
  | Filter es c => filter (all_true es) (rows n c)
  | JoinOf jt on l r =>
      match jt with
      | JInner => inner_join n (plan_ids l) (plan_ids r) (all_true on) (rows n l) (rows n r)
      | JLeft => left_join n (plan_ids l) (plan_ids r) (all_true on) (rows n l) (rows n r)
      | JRight => right_join n (plan_ids l) (plan_ids r) (all_true on) (rows n l) (rows n r)
      | JFull => full_join n (plan_ids l) (plan_ids r) (all_true on) (rows n l) (rows n r)
      end
  end.

(* ---- the plans ---- *)

Definition about (ids : list nat) (e : expr) : Prop := forall t, In t (tuple_ids e) -> In t ids.
(* it reads a column *)
Definition reads (e : expr) : Prop := tuple_ids e <> [].
(* no function that is not NULL on a NULL *)
Inductive strict : expr -> Prop :=
| strict_slot t s : strict (ESlot t s)
| strict_const v : strict (EConst v)
| strict_fn f l : Forall strict l -> strict (EFn f l).
(* AND and OR at the top, over operands that read a column *)
Inductive plain : expr -> Prop :=
| plain_strict e : strict e -> plain e
| plain_and a b : plain a -> plain b -> reads a -> reads b -> plain (EAnd a b)
| plain_or a b : plain a -> plain b -> reads a -> reads b -> plain (EOr a b).
(* one of the functions for NULL is in it *)
Inductive null_aware : expr -> Prop :=
| na_here f l : null_aware (ENull f l)
| na_fn f l e : In e l -> null_aware e -> null_aware (EFn f l)
| na_tol f l e : In e l -> null_aware e -> null_aware (ETol f l)
| na_and_l a b : null_aware a -> null_aware (EAnd a b)
| na_and_r a b : null_aware b -> null_aware (EAnd a b)
| na_or_l a b : null_aware a -> null_aware (EOr a b)
| na_or_r a b : null_aware b -> null_aware (EOr a b).
Definition usual (e : expr) : Prop := reads e /\ (null_aware e \/ plain e).

(* no condition in [on] is about the tables [ids] only, except null-aware ones *)
Definition none_about (ids : list nat) (on : list expr) : Prop := forall e, In e on -> about ids e -> null_aware e.

(* conditions are usual and about tables of the plan; each table once; ON conditions of an outer
   join are not about the preserved side only *)
Fixpoint plan_ok (n : nat) (p : plan) : Prop :=
  match p with
  | Scan t _ => t < n
  | Filter es c => plan_ok n c /\ forall e, In e es -> usual e /\ about (plan_ids c) e
  | JoinOf jt on l r =>
      plan_ok n l /\ plan_ok n r /\ (forall t, In t (plan_ids l) -> ~ In t (plan_ids r)) /\
      (forall e, In e on -> usual e /\ about (plan_ids l ++ plan_ids r) e) /\
      match jt with
      | JInner => True
      | JLeft => none_about (plan_ids l) on
      | JRight => none_about (plan_ids r) on
      | JFull => none_about (plan_ids l) on /\ none_about (plan_ids r) on
      end
  end.
