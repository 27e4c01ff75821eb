(* What a predicate with a subquery that refers to the outer query selects, without the node that
   computes it.  [sub o]: the rows the subquery is taken from for the outer row [o]; [on]: the
   condition on both (the WHERE conditions about the outer query and the predicate itself). *)
From Coq Require Import List ZArith Bool Arith Sorting.Permutation.
From Verif Require Import Common.Bytes Key.Model Key.Spec Join.Model Join.Spec Subquery.Spec Subquery.ApplyModel.
Import ListNotations.

Section Apply.
Variables (n : nat) (L R : list nat) (on : row -> bool) (sub : row -> list row).
(* the subquery has a row that goes with [o] *)
Definition has_partner (o : row) : bool := existsb (fun i => on (glue n L R o i)) (sub o).
Definition semi (outer : list row) : list row := filter has_partner outer.
Definition anti (outer : list row) : list row := filter (fun o => negb (has_partner o)) outer.
(* every outer row with its partners, or with NULLs *)
Definition padded (outer : list row) : list row :=
  flat_map (fun o => match partners n L R on o (sub o) with [] => [alone n L o] | ps => map (glue n L R o) ps end) outer.
End Apply.

(* the columns of the outer query *)
Definition outer_columns (n : nat) (L : list nat) (rows : list row) : list row := map (alone n L) rows.
(* all rows, or a part of them that has as many as LIMIT asks for *)
Definition up_to (k : option nat) (out all : list row) : Prop :=
  exists rest, Permutation (out ++ rest) all /\ (rest = [] \/ exists m, k = Some m /\ (m <= length out)%nat).

(* the IN condition on the inner side lets exactly the equal values pass *)
Definition in_exact (in_eq : coltype -> coltype -> value -> value -> bool) : Prop :=
  forall a b v w, in_eq a b v w = true <-> equal_values a b (Some v) (Some w).
(* conditions other than row comparisons *)
Definition plain (cs : list jcond) : Prop := Forall (fun c => match c with CRowEq _ => False | _ => True end) cs.
(* the subquery has two rows that are equal to [o] in the columns the conditions set equal *)
Definition several (L R : list nat) (cs : list jcond) (sub : row -> list row) (o : row) : Prop :=
  exists x i y j z, sub o = x ++ i :: y ++ j :: z /\ agrees L R cs o i /\ agrees L R cs o j.

(* Rows of the two sides.  [hash]: the inner side is read once for many outer rows; then it must
   not depend on them, and the keys must be comparable (see Join/Spec.v). *)
Record inputs_ok (hash : bool) (in_eq : coltype -> coltype -> value -> value -> bool) (n : nat) (L R : list nat) (cs : list jcond)
    (sub : row -> list row) (inner outer : list row) : Prop := {
  in_apart : forall t, In t L -> ~ In t R;
  in_small : forall t, In t L \/ In t R -> (t < n)%nat;
  in_values : hash = false -> in_exact in_eq;
  in_keys : hash = true -> (forall o, In o outer -> sub o = inner) /\ in_complete in_eq /\ nulls_apart L R cs outer /\
    (forall l r, join_key L R cs l r -> comparable (s_type l) (s_type r) /\ Forall (typed l) outer /\ Forall (typed r) inner) }.

(* the rows of the outer side are joined in groups of at least one (the parent's limit) *)
Definition parent_ok (A : apply) : Prop := forall k, ap_parent A = Some k -> (1 <= k)%nat.

(* ---- the predicates in SQL ---- *)

(* the values of the subquery for [o]: those of [e] in the rows for which WHERE is TRUE *)
Definition sub_values (n : nat) (L R : list nat) (cond : row -> bool) (sub : row -> list row) (e : operand) (o : row) : list (option value) :=
  map (fun i => side (glue n L R o i) e) (filter (fun i => cond (glue n L R o i)) (sub o)).
Definition is_true (b : option bool) : bool := match b with Some true => true | _ => false end.
(* the predicate is TRUE *)
Definition accepts (p : predicate) (t : coltype) (x : option value) (vs : list (option value)) : bool :=
  match p with
  | PIn => is_true (any3 (value_compare t) OpEq x vs)
  | PNotIn => is_true (all3 (value_compare t) OpNe x vs)
  | PAny op => is_true (any3 (value_compare t) op x vs)
  | PAll op => is_true (all3 (value_compare t) op x vs)
  | PScalar op => match scalar vs with Some v => is_true (compare3 (value_compare t) op x v) | None => false end
  | PExists => match vs with [] => false | _ => true end
  | PNotExists => match vs with [] => true | _ => false end
  end.
(* the expression reads only columns of the outer query *)
Definition reads_outer (n : nat) (L R : list nat) (x : operand) : Prop := forall o i, side (glue n L R o i) x = side (alone n L o) x.
(* for which the node is right *)
Definition covered (p : predicate) (x : option value) (vs : list (option value)) : Prop :=
  match p with
  | PIn | PAny _ | PExists | PNotExists => True
  | PNotIn | PAll _ => x <> None /\ no_nulls vs
  | PScalar _ => (length vs <= 1)%nat
  end.
