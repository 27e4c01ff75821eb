(* What sorting means. *)
From Coq Require Import ZArith List Bool Permutation Sorted.
Import ListNotations.
Local Open Scope Z_scope.

(* [cmp] orders the rows satisfying P: exactly one of below, level, above holds between two
   of them, and "not above" is transitive *)
Definition orders {A} (P : A -> Prop) (cmp : A -> A -> Z) : Prop :=
  (forall a b, P a -> P b -> cmp a b < 0 <-> 0 < cmp b a) /\
  (forall a b c, P a -> P b -> P c -> cmp a b <= 0 -> cmp b c <= 0 -> cmp a c <= 0).

Definition in_order {A} (cmp : A -> A -> Z) : list A -> Prop :=
  StronglySorted (fun x y => cmp x y <= 0).

(* the stable sort of a list *)
Fixpoint insert {A} (cmp : A -> A -> Z) (x : A) (l : list A) : list A :=
  match l with
  | [] => [x]
  | y :: t => if cmp x y <=? 0 then x :: y :: t else y :: insert cmp x t
  end.
Fixpoint stable_sort {A} (cmp : A -> A -> Z) (l : list A) : list A :=
  match l with [] => [] | x :: t => insert cmp x (stable_sort cmp t) end.

(* [out] is an initial part, of n rows if there are that many, of [input] in order *)
Definition first_rows {A} (cmp : A -> A -> Z) (n : nat) (input out : list A) : Prop :=
  exists rest, Permutation input (out ++ rest) /\ in_order cmp out /\
    (forall x y, In x out -> In y rest -> cmp x y <= 0) /\
    length out = Nat.min n (length input).

(* LIMIT offset, count (count None: no limit) *)
Definition page {A} (offset : Z) (count : option Z) (l : list A) : list A :=
  let l' := skipn (Z.to_nat offset) l in
  match count with None => l' | Some n => firstn (Z.to_nat n) l' end.
