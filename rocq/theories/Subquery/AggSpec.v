(* What a comparison with an aggregate over a subquery that refers to the outer query means. *)
From Coq Require Import List ZArith Bool Arith.
From Verif Require Import Key.Model Key.Spec Join.Model Join.Spec Subquery.Spec Subquery.ApplySpec.
Import ListNotations.

(* the values the function is computed from for the outer row [o]: those of [e] in the rows for
   which WHERE is TRUE *)
Definition agg_values (n : nat) (L R : list nat) (cond : row -> bool) (e : row -> option value) (rows : list row) (o : row) : list (option value) :=
  map e (filter (fun i => cond (glue n L R o i)) rows).
(* equal values are the same value *)
Definition exact_type (t : coltype) : Prop := t <> FLOAT /\ t <> DOUBLE.
(* the condition sets a column of the subquery equal to an expression over the outer row *)
Definition sets_key (n a : nat) (L R : list nat) (c : jcond) : Prop :=
  exists s y, (c = CEq y (OSlot s) \/ c = CEq (OSlot s) y) /\ In (s_tuple s) R /\ s_tuple s <> a /\ reads_outer n L R y /\
    (forall u, y = OSlot u -> ~ In (s_tuple u) R) /\ exact_type (s_type s).
