(* Partitions, users and rows in plain terms.  Only the record types of the model are used. *)
From Verif.Part Require Import Model.
From Coq Require Import List ZArith.
Import ListNotations.
Local Open Scope Z_scope.

(* a partition holds the values from its left bound on, below its right bound *)
Definition from (b : bnd) (z : Z) : Prop := match b with BVal x => x <= z | BMax => False end.
Definition before (z : Z) (b : bnd) : Prop := match b with BVal x => z < x | BMax => True end.
Definition holds (p : part) (z : Z) : Prop := from (p_left p) z /\ before z (p_right p).

(* the ordinary partitions a user of type T works with: cold ones and hot ones of the type *)
Definition usable (T : ptype) (p : part) : Prop :=
  p_type p <> TAdditional /\ (p_cold p = true \/ p_type p = T).
(* two partitions one user may work with at the same time *)
Definition shared (p q : part) : Prop :=
  (p_type p = TAdditional /\ p_type q = TAdditional) \/ exists T, usable T p /\ usable T q.
Definition overlap (p q : part) : Prop := exists z, holds p z /\ holds q z.

Definition well (c : catalog) : Prop :=
  NoDup (map p_name (c_parts c)) /\ NoDup (map p_id (c_parts c)) /\
  (forall p, In p (c_parts c) -> 0 <= p_id p <= c_max c) /\
  (forall p q, In p (c_parts c) -> In q (c_parts c) -> shared p q -> overlap p q -> p = q).

(* what a user outside a table switch sees *)
Definition sees (u : user) (is_read : bool) (p : part) : Prop :=
  if u_additional u then p_type p = TAdditional
  else usable (u_type u) p \/ (is_read = true /\ p_type p = TAdditional).

(* the values a WHERE clause lets through *)
Definition passes (w : cond) (z : Z) : Prop :=
  match w with
  | CNone => True
  | CIn vs => In (Some z) vs
  | CRange l lopen r ropen =>
      (match l with None => True | Some x => if lopen then x < z else x <= z end) /\
      (match r with None => True | Some x => if ropen then z < x else z <= x end)
  end.
