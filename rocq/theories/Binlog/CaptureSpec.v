(* What a subscriber to several regions is to get. *)
From Coq Require Import List ZArith Bool.
From Verif Require Import Binlog.Spec.
Import ListNotations.
Open Scope Z_scope.

(* What was delivered of region [i]. *)
Definition of_region (i : Z) (got : list (Z * (Z * option nat))) : list (Z * option nat) :=
  map snd (filter (fun e => fst e =? i) got).

(* [logs i]: the log of region i.  Everything committed in one of the regions in the time after [lo] up to [hi],
   once, and all in the order of commit. *)
Record complete_all (ids : list Z) (logs : Z -> list op) (lo hi : Z) (got : list (Z * (Z * option nat))) : Prop := {
  all_in_order : forall g1 a b g2, got = g1 ++ a :: b :: g2 -> fst (snd a) <= fst (snd b);
  all_known : forall e, In e got -> In (fst e) ids;
  all_complete : forall i, In i ids -> complete (logs i) lo hi (of_region i got)
}.
