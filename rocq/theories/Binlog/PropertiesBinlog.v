(* C85: the change stream of a region. *)
From Coq Require Import List ZArith Bool Lia Relations.
From Verif Require Import Binlog.Spec Binlog.Model Binlog.Honest Binlog.Inv Binlog.Read Binlog.Run.
Import ListNotations.
Open Scope Z_scope.

Lemma replica_ready l s : replica l s -> honest l -> opened l -> inv l s.
Proof.
  intros R HL OP. destruct (replica_inv l s R HL (or_intror OP)) as [[-> _]|X]; auto. destruct OP as (o & rest & E & _). discriminate.
Qed.

Lemma opened_prefix d l : prefix d l -> opened l -> d = [] \/ opened d.
Proof.
  intros [x ->] (o & rest & E & K). destruct d as [|a d]; auto. right. injection E as -> _. exists o, d. auto.
Qed.

(* What one read from a replica returns is exactly what was committed in the region between the position read
   from and the last time stamp returned -- also of the entries the replica has not seen yet. *)
Theorem C85_read_complete_partial : forall w d s begin_ts cnt room batch r,
  reachable w -> opened (log w) -> prefix d (log w) -> replica d s ->
  read_binlog s begin_ts cnt room batch = Ok r ->
  complete (log w) begin_ts (last_ts begin_ts r) r.
Proof.
  intros w d s b cnt room batch r Hw OP PF R E. pose proof (reachable_honest w Hw) as HL.
  pose proof (opened_prefix _ _ PF OP) as OD. destruct PF as [more EL]. rewrite EL in HL |- *.
  destruct (replica_inv d s R (honest_prefix _ _ HL) OD) as [[-> ->]|I0]; [cbn in E; discriminate|].
  eapply read_complete; eauto.
Qed.
Print Assumptions C85_read_complete_partial.

(* A consumer: it reads on from where it is, each time from any replica. *)
Inductive consumer (l : list op) (from : Z) : Z -> list (Z * option nat) -> Prop :=
| cons_start : consumer l from from []
| cons_read : forall pos got d s cnt room batch r, consumer l from pos got -> prefix d l -> replica d s ->
    read_binlog s pos cnt room batch = Ok r -> consumer l from (last_ts pos r) (got ++ r).

Theorem C85_consumer_complete_partial : forall w from pos got,
  reachable w -> opened (log w) -> consumer (log w) from pos got -> complete (log w) from pos got.
Proof.
  intros w from pos got Hw OP C.
  assert (X : complete (log w) from pos got /\ from <= pos); [|apply X].
  induction C as [|pos got d s cnt room batch r C [IH L] PF R E].
  - split; [|lia]. constructor; try easy; [intros r1 a b r2 E; now destruct r1|intros c v _ B; lia].
  - pose proof (C85_read_complete_partial w d s pos cnt room batch r Hw OP PF R E) as X.
    pose proof (complete_le _ _ _ X) as LE. split; [|lia]. now apply complete_app with (mid := pos).
Qed.
Print Assumptions C85_consumer_complete_partial.

(* When every transaction of the log is decided, the next heartbeat makes the stream readable up to it. *)
Theorem C85_heartbeat_moves : forall w l t s persist f rest begin_ts cnt room batch,
  reachable w -> log w = l ++ [Op Fake t (-1) 0 0] -> replica l s -> settled l -> (forall o, In o l -> o_ts o < t) ->
  l = f :: rest -> o_kind f = Fake -> (forall o, In o l -> o_kind o = Commit -> o_ts f <= o_start o) ->
  o_ts f <= begin_ts < t -> 0 <= cnt -> (1 <= room)%nat ->
  exists r, read_binlog (apply_op persist s (Op Fake t (-1) 0 0)) begin_ts cnt room batch = Ok r /\ r <> [].
Proof.
  intros w l t s b f rest bt cnt room batch Hw EL R ST BIG EF KF OLD RG C0 R0.
  pose proof (reachable_honest w Hw) as HL. rewrite EL in HL. pose proof (honest_prefix _ _ HL) as HP.
  assert (I0 : inv l s) by (apply replica_ready; auto; exists f, rest; auto).
  pose proof (heartbeat_catches_up l s t b HL I0 ST BIG) as CP.
  assert (I1 : inv (l ++ [Op Fake t (-1) 0 0]) (apply_op b s (Op Fake t (-1) 0 0))).
  { apply replica_ready; auto; [now apply r_apply|]. exists f, (rest ++ [Op Fake t (-1) 0 0]). subst l. auto. }
  assert (OD : oldest (apply_op b s (Op Fake t (-1) 0 0)) = o_ts f).
  { destruct (v_old _ _ I1) as (o0 & x & E & -> & _). subst l. injection E as -> _. reflexivity. }
  apply (read_moves (l ++ [Op Fake t (-1) 0 0])); auto; rewrite ?OD; try lia.
  - intros o Ho K. apply in_app_iff in Ho as [Ho|[<-|[]]]; [auto|discriminate].
  - exists (Op Fake t (-1) 0 0). rewrite in_app_iff, CP. cbn. split; auto. split; auto. lia.
Qed.
Print Assumptions C85_heartbeat_moves.

(* ---------- a history ---------- *)

Definition log_of (h : list act) : list op := match plays world0 h with Some w => log w | None => [] end.
Fixpoint apply_all (s : st) (l : list op) (persist : bool) : st :=
  match l with [] => s | o :: rest => apply_all (apply_op persist s o) rest persist end.

Lemma apply_all_replica b l2 : forall l1 s, replica l1 s -> replica (l1 ++ l2) (apply_all s l2 b).
Proof.
  induction l2 as [|o l2 IH]; intros l1 s R; cbn; [now rewrite app_nil_r|].
  rewrite <- (app_nil_l l2), app_comm_cons, app_assoc. apply IH. now apply r_apply.
Qed.
Lemma apply_all_any b l2 : forall l1 s, any_replica l1 s -> any_replica (l1 ++ l2) (apply_all s l2 b).
Proof.
  induction l2 as [|o l2 IH]; intros l1 s R; cbn; [now rewrite app_nil_r|].
  rewrite <- (app_nil_l l2), app_comm_cons, app_assoc. apply IH. now apply a_apply.
Qed.

Ltac played h := exists (match plays world0 h with Some w => w | None => world0 end);
  split; [apply (plays_reachable h); reflexivity|].

(* Three transactions: the first commits at 150, the second is rolled back, the third commits at 180; heartbeats at 100
   and 200.  A replica that restarts in between and one that lags behind are read. *)
Definition history1 : list act :=
  [AIssue 100 UFake; AFake 100; AIssue 110 (UStart 7); AIssue 120 (UStart 8); AIssue 130 (UStart 9);
   APrewrite 120 1 8; APrewrite 110 2 7; AIssue 150 (UCommit 110); ADecide 110 (Some 150); ACommit 110 150 2;
   ADecide 120 None; ARollback 120; APrewrite 130 1 9; AIssue 180 (UCommit 130); ADecide 130 (Some 180);
   ACommit 130 180 1; AIssue 200 UFake; AFake 200].
Example C85_history : exists w, reachable w /\ opened (log w) /\ settled (removelast (log w)) /\
  exists s, replica (log w) s /\
    read_binlog s 100 10 10 3 = Ok [(150, Some 7%nat); (180, Some 9%nat); (200, None)] /\
    consumer (log w) 100 200 [(150, Some 7%nat); (180, Some 9%nat); (200, None)].
Proof.
  played history1. split; [eexists; eexists; split; reflexivity|]. split.
  { apply settledb_ok. reflexivity. }
  pose (l := log_of history1).
  exists (apply_all (restart true (apply_all st0 (firstn 4 l) true)) (skipn 4 l) false).
  assert (R1 : replica (firstn 4 l) (restart true (apply_all st0 (firstn 4 l) true))).
  { apply r_restart.
    - apply (apply_all_replica true (firstn 4 l) [] st0). constructor.
    - right. reflexivity.
    - intros t [(o & Ho & K & T) N]. cbn in Ho. cbn.
      destruct (Z.eq_dec t 110) as [->|NE]; [exfalso; apply (N (Op Commit 150 110 2 0)); cbn; auto 10|].
      repeat (destruct Ho as [<-|Ho]; [cbn in K, T; try discriminate; lia|]). easy. }
  assert (R2 : replica l (apply_all (restart true (apply_all st0 (firstn 4 l) true)) (skipn 4 l) false)).
  { rewrite <- (firstn_skipn 4 l) at 1. now apply apply_all_replica. }
  split; [exact R2|]. split; [reflexivity|].
  (* the first read from a replica that has seen all but the last two entries *)
  change (consumer l 100 200 ([(150, Some 7%nat)] ++ [(180, Some 9%nat); (200, None)])).
  apply (cons_read l 100 150 [(150, Some 7%nat)] l
           (apply_all (restart true (apply_all st0 (firstn 4 l) true)) (skipn 4 l) false) 10 10 10
           [(180, Some 9%nat); (200, None)]); [|exists []; now rewrite app_nil_r|exact R2|reflexivity].
  change (consumer l 100 (last_ts 100 [(150, Some 7%nat)]) ([] ++ [(150, Some 7%nat)])).
  apply (cons_read l 100 100 [] (firstn 5 l) (apply_all st0 (firstn 5 l) false) 10 10 10 [(150, Some 7%nat)]).
  - constructor.
  - exists (skipn 5 l). symmetry. apply firstn_skipn.
  - apply (apply_all_replica false (firstn 5 l) [] st0). constructor.
  - reflexivity.
Qed.

(* ---------- what does not hold ---------- *)

(* Restarts at any time: the check point on disk may be newer than a transaction prewritten later and still
   undecided.  A restart forgets the transaction, the check point passes it, and a reader never gets its commit. *)
Theorem C85_restart_refuted : exists w, reachable w /\ opened (log w) /\
  exists d s begin_ts cnt room batch r, prefix d (log w) /\ any_replica d s /\
    read_binlog s begin_ts cnt room batch = Ok r /\ ~ complete (log w) begin_ts (last_ts begin_ts r) r.
Proof.
  pose (h := [AIssue 90 (UStart 7); AIssue 100 UFake; AFake 100; APrewrite 90 1 7; AIssue 150 (UCommit 90);
              ADecide 90 (Some 150); AIssue 200 UFake; AFake 200; ACommit 90 150 1]).
  played h. split; [eexists; eexists; split; reflexivity|].
  pose (l := log_of h).
  exists (firstn 3 l), (apply_op false (restart false (apply_all st0 (firstn 2 l) false)) (Op Fake 200 (-1) 0 0)), 100, 10, 10%nat, 10%nat, [(200, None)].
  split; [exists (skipn 3 l); symmetry; apply firstn_skipn|]. split; [|split; [reflexivity|]].
  - apply (a_apply (firstn 2 l)). apply a_restart. apply (apply_all_any false (firstn 2 l) [] st0). constructor.
  - intros C. pose proof (every_committed _ _ _ _ C 150 7%nat) as X. cbn in X.
    destruct X as [X|[]]; [|lia|discriminate].
    exists (Op Commit 150 90 1 0), (Op Prewrite 90 90 1 7). cbn. auto 10.
Qed.
Print Assumptions C85_restart_refuted.

(* The same although no undecided transaction is older than the check point on disk: after a restart on a commit
   row the check point written next is -1, and the restart after that starts from nothing. *)
Theorem C85_check_point_lost_refuted : exists w, reachable w /\ opened (log w) /\
  exists d1 s1 d s begin_ts cnt room batch r, replica d1 s1 /\ (forall t, pending d1 t -> saved s1 <= t) /\
    d = d1 ++ [Op Fake 200 (-1) 0 0; Op Fake 300 (-1) 0 0] /\ prefix d (log w) /\
    s = apply_all (restart false s1) [Op Fake 200 (-1) 0 0; Op Fake 300 (-1) 0 0] false /\
    read_binlog s begin_ts cnt room batch = Ok r /\ ~ complete (log w) begin_ts (last_ts begin_ts r) r.
Proof.
  pose (h := [AIssue 100 UFake; AFake 100; AIssue 110 (UStart 7); APrewrite 110 1 7; AIssue 120 (UCommit 110);
              ADecide 110 (Some 120); ACommit 110 120 1; ACommit 110 120 1; AIssue 130 (UStart 9); APrewrite 130 1 9;
              AIssue 200 UFake; AFake 200; AIssue 250 (UCommit 130); AIssue 300 UFake; AFake 300;
              ADecide 130 (Some 250); ACommit 130 250 1]).
  played h. split; [eexists; eexists; split; reflexivity|].
  pose (l := log_of h).
  pose (s1 := apply_all (restart false (apply_all st0 (firstn 3 l) true)) [Op Commit 120 110 1 0] true).
  pose (s2 := apply_all s1 [Op Prewrite 130 130 1 9] false).
  exists (firstn 5 l), s2, (firstn 7 l), (apply_all (restart false s2) [Op Fake 200 (-1) 0 0; Op Fake 300 (-1) 0 0] false),
    200, 10, 10%nat, 10%nat, [(300, None)].
  split; [|split; [|split; [reflexivity|split; [exists (skipn 7 l); symmetry; apply firstn_skipn|split; [reflexivity|split; [reflexivity|]]]]]].
  - change (firstn 5 l) with (((firstn 3 l) ++ [Op Commit 120 110 1 0]) ++ [Op Prewrite 130 130 1 9]).
    apply (apply_all_replica false [Op Prewrite 130 130 1 9] (firstn 3 l ++ [Op Commit 120 110 1 0]) s1).
    apply (apply_all_replica true [Op Commit 120 110 1 0] (firstn 3 l) (restart false (apply_all st0 (firstn 3 l) true))).
    apply r_restart.
    + apply (apply_all_replica true (firstn 3 l) [] st0). constructor.
    + right. reflexivity.
    + intros t [(o & Ho & K & T) N]. cbn in Ho.
      destruct Ho as [<-|[<-|[<-|[]]]]; cbn in K, T; try discriminate. subst t. exfalso.
      apply (N (Op Commit 120 110 1 0)); cbn; auto.
  - intros t [(o & Ho & K & <-) _]. cbn in Ho. change (saved s2) with (-1).
    destruct Ho as [<-|[<-|[<-|[<-|[<-|[]]]]]]; cbn; lia.
  - intros C. pose proof (every_committed _ _ _ _ C 250 9%nat) as X. cbn in X.
    destruct X as [X|[]]; [|lia|discriminate].
    exists (Op Commit 250 130 1 0), (Op Prewrite 130 130 1 9). cbn. auto 10.
Qed.
Print Assumptions C85_check_point_lost_refuted.

(* A transaction prewritten before the region's first heartbeat. *)
Theorem C85_before_opening_refuted : exists w, reachable w /\
  exists d s begin_ts cnt room batch r, prefix d (log w) /\ replica d s /\
    read_binlog s begin_ts cnt room batch = Ok r /\ ~ complete (log w) begin_ts (last_ts begin_ts r) r.
Proof.
  pose (h := [AIssue 90 (UStart 7); APrewrite 90 1 7; AIssue 100 UFake; AFake 100; AIssue 150 (UCommit 90);
              ADecide 90 (Some 150); AIssue 200 UFake; AFake 200; ACommit 90 150 1]).
  played h. pose (l := log_of h).
  exists (firstn 3 l), (apply_all st0 (firstn 3 l) false), 100, 10, 10%nat, 10%nat, [(200, None)].
  split; [exists (skipn 3 l); symmetry; apply firstn_skipn|]. split; [|split; [reflexivity|]].
  - apply (apply_all_replica false (firstn 3 l) [] st0). constructor.
  - intros C. pose proof (every_committed _ _ _ _ C 150 7%nat) as X. cbn in X.
    destruct X as [X|[]]; [|lia|discriminate].
    exists (Op Commit 150 90 1 0), (Op Prewrite 90 90 1 7). cbn. auto 10.
Qed.
Print Assumptions C85_before_opening_refuted.

(* A transaction that began before the region's first heartbeat and committed after it: a reader at the first
   heartbeat is told for ever that it asks for data removed long ago. *)
Theorem C85_moves_refuted : exists w f rest s, reachable w /\ log w = f :: rest /\ o_kind f = Fake /\
  settled (log w) /\ replica (log w) s /\ cp s = 200 /\ o_ts f = 100 /\
  forall cnt room batch, read_binlog s 100 cnt room batch = TooOld.
Proof.
  pose (h := [AIssue 90 (UStart 7); AIssue 100 UFake; AFake 100; APrewrite 90 1 7; AIssue 120 (UCommit 90);
              ADecide 90 (Some 120); ACommit 90 120 1; AIssue 200 UFake; AFake 200]).
  exists (match plays world0 h with Some w => w | None => world0 end), (Op Fake 100 (-1) 0 0), (tl (log_of h)),
    (apply_all st0 (log_of h) false).
  split; [apply (plays_reachable h); reflexivity|]. split; [reflexivity|]. split; [reflexivity|]. split.
  { apply settledb_ok. reflexivity. }
  split; [apply (apply_all_replica false (log_of h) [] st0); constructor|].
  split; [reflexivity|]. split; [reflexivity|]. intros cnt room batch. reflexivity.
Qed.
Print Assumptions C85_moves_refuted.
