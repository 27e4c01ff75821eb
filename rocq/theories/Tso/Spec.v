(* What the timestamp properties mean. *)
From Verif.Tso Require Import Model.
Local Open Scope Z_scope.

(* timestamp (p,l) is one of those handed out by response o *)
Definition issued (o : out) (p l : Z) : Prop :=
  p = o_p o /\ o_l o <= l < o_l o + o_count o.

Definition ts_lt (p l p' l' : Z) : Prop := p < p' \/ (p = p' /\ l < l').

(* o1 was answered before o2 ([outs] lists the newest answer first) *)
Definition answered_before (c : cluster) (o1 o2 : out) : Prop :=
  exists a b d, outs c = a ++ o2 :: b ++ o1 :: d.

(* every timestamp of o1 is smaller than every timestamp of o2 *)
Definition all_smaller (o1 o2 : out) : Prop :=
  forall p l p' l', issued o1 p l -> issued o2 p' l' -> ts_lt p l p' l'.
Definition no_common (o1 o2 : out) : Prop :=
  forall p l, issued o1 p l -> ~ issued o2 p l.

(* Steps covered by the uniqueness theorem.  Left out, each refuted separately:
   administrative resets, requests for a negative number of timestamps, and the
   three kinds of step in which a thread acts on a leadership that ended meanwhile. *)
Definition ordinary (a : label) : Prop :=
  match a with
  | ResetReq _ _ _ _ _ => False
  | LsStoreLate _ | TickCommitLate _ | GenTryLate _ _ => False
  | GenReq _ count => 0 < count
  | _ => True
  end.

(* requests with sensible arguments: a positive number of timestamps, and resets
   to a non-negative logical part *)
Definition sane (a : label) : Prop :=
  match a with
  | GenReq _ count => 0 < count
  | ResetReq _ _ l _ _ => 0 <= l
  | _ => True
  end.
