(* The change stream (binlog) of one region: what writers do, and what a reader is to get. *)
From Coq Require Import List ZArith Bool Relations.
Import ListNotations.
Open Scope Z_scope.

(* The entries of the region's raft log. [Prewrite] carries the changes of a transaction under its start
   time stamp, [Commit] and [Rollback] say what became of the transaction of start time [o_start], [Fake] carries a
   time stamp only.  [o_ts] is the time stamp the entry is filed under. *)
Inductive kind := Fake | Prewrite | Commit | Rollback.
Record op := Op { o_kind : kind; o_ts : Z; o_start : Z; o_cnt : Z; o_val : nat }.

(* What a time stamp was drawn for. *)
Inductive use := UStart (v : nat) | UCommit (s : Z) | UFake | URoll (s : Z).

(* The writers: time stamps drawn so far (the oracle gives growing ones, C09), the transactions decided (a
   decision is made once, C33), and the log. *)
Record world := W { clock : Z; issued : list (Z * use); decided : list (Z * option Z); log : list op }.
Definition world0 : world := W 0 [] [] [].

Definition append (w : world) (o : op) : world := W (clock w) (issued w) (decided w) (log w ++ [o]).

(* What can happen.  Requests may arrive late and more than once; every entry may be appended at any time
   after its time stamps were drawn.  A commit time stamp is drawn only when the prewrite has been
   acknowledged. *)
Inductive step : world -> world -> Prop :=
| s_issue : forall w t u, clock w < t ->
    match u with
    | UCommit s => exists o, In o (log w) /\ o_kind o = Prewrite /\ o_ts o = s
    | _ => True
    end ->
    step w (W t ((t, u) :: issued w) (decided w) (log w))
| s_decide : forall w s d, (forall d', ~ In (s, d') (decided w)) ->
    match d with Some c => In (c, UCommit s) (issued w) | None => True end ->
    step w (W (clock w) (issued w) ((s, d) :: decided w) (log w))
| s_prewrite : forall w s v n, In (s, UStart v) (issued w) -> step w (append w (Op Prewrite s s n v))
| s_commit : forall w s c n, In (s, Some c) (decided w) -> step w (append w (Op Commit c s n 0))
| s_rollback_start : forall w s, In (s, None) (decided w) -> (exists v, In (s, UStart v) (issued w)) ->
    step w (append w (Op Rollback s s 0 0))
| s_rollback_late : forall w s t, In (s, None) (decided w) -> In (t, URoll s) (issued w) -> s < t ->
    step w (append w (Op Rollback t s 0 0))
| s_fake : forall w t, In (t, UFake) (issued w) -> step w (append w (Op Fake t (-1) 0 0)).

Definition reachable : world -> Prop := clos_refl_trans_n1 world step world0.

(* The log has been opened by a [Fake] entry, as regions do before they take part. *)
Definition opened (l : list op) : Prop := exists o rest, l = o :: rest /\ o_kind o = Fake.

(* A transaction is in the log as committed at [c] with the changes [v]. *)
Definition committed (l : list op) (c : Z) (v : nat) : Prop :=
  exists o p, In o l /\ o_kind o = Commit /\ o_ts o = c /\
              In p l /\ o_kind p = Prewrite /\ o_ts p = o_start o /\ o_val p = v.

(* The transaction of start time [s] is prewritten and not yet decided in the log. *)
Definition pending (l : list op) (s : Z) : Prop :=
  (exists o, In o l /\ o_kind o = Prewrite /\ o_ts o = s) /\
  (forall o, In o l -> (o_kind o = Commit \/ o_kind o = Rollback) -> o_start o <> s).

(* Every prewrite in the log is followed by its decision. *)
Definition settled (l : list op) : Prop := forall l1 p l2,
  l = l1 ++ p :: l2 -> o_kind p = Prewrite ->
  exists o, In o l2 /\ (o_kind o = Commit \/ o_kind o = Rollback) /\ o_start o = o_ts p.

(* What a reader gets for the time after [lo] up to [hi]: commit time stamps in increasing order with the
   changes of the transaction, and heartbeats (None). *)
Definition increasing (r : list (Z * option nat)) : Prop :=
  forall r1 a b r2, r = r1 ++ a :: b :: r2 -> fst a < fst b.

Record complete (l : list op) (lo hi : Z) (r : list (Z * option nat)) : Prop := {
  in_order : increasing r;
  in_range : forall t x, In (t, x) r -> lo < t <= hi;
  only_committed : forall c v, In (c, Some v) r -> committed l c v;
  every_committed : forall c v, committed l c v -> lo < c <= hi -> In (c, Some v) r;
  heartbeats : forall t, In (t, None) r -> exists o, In o l /\ o_kind o = Fake /\ o_ts o = t
}.

(* Where the next read goes on. *)
Fixpoint last_ts (d : Z) (r : list (Z * option nat)) : Z :=
  match r with
  | [] => d
  | a :: rest => last_ts (fst a) rest
  end.

Definition prefix {A} (a b : list A) : Prop := exists c, b = a ++ c.
