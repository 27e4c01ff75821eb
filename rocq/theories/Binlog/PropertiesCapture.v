(* C86: the change stream over several regions. *)
From Coq Require Import List ZArith Bool Lia.
From Verif Require Import Binlog.Spec Binlog.CaptureSpec Binlog.Model Binlog.Run Binlog.PropertiesBinlog
  Binlog.Capture Binlog.CaptureProof.
Import ListNotations.
Open Scope Z_scope.

(* A subscriber and the regions [ids], region i having the history [w i]: it subscribes again and again at the
   position it was told last, or somewhere else.  Every region asked may answer or not, and any of its replicas
   may be the one that answers. *)
Inductive session (ids : list Z) (max_cache : nat) (w : Z -> world) : cap -> Z -> Z -> list (Z * (Z * option nat)) -> Prop :=
| se_new : forall from, session ids max_cache w cap0 from from []
| se_seek : forall c from pos got from', session ids max_cache w c from pos got -> session ids max_cache w c from' from' []
| se_subscribe : forall c from pos got ok answers c' pos' q, session ids max_cache w c from pos got ->
    (forall i p r, In (i, p) (snd (regions_step ids max_cache pos c)) -> answers i = Some r ->
       exists d s cnt room batch, prefix d (log (w i)) /\ replica d s /\ read_binlog s p cnt room batch = Ok r) ->
    subscribe ids max_cache ok answers pos c = (c', pos', q) ->
    session ids max_cache w c' from pos' (got ++ q).

Lemma session_inv ids mc w c from pos got : NoDup ids -> (forall i, In i ids -> reachable (w i) /\ opened (log (w i))) ->
  session ids mc w c from pos got ->
  capinv ids (fun i => log (w i)) c /\ complete_all ids (fun i => log (w i)) from pos got /\ from <= pos.
Proof.
  intros ND HW S0.
  assert (NIL : forall p, complete_all ids (fun i => log (w i)) p p []).
  { intros p. constructor; [intros g1 a b g2 X; now destruct g1|easy|intros i Hi; apply complete_nil]. }
  induction S0 as [from|c from pos got from' S0 IH|c from pos got ok ans c' pos' q S0 IH A E].
  - split; [apply cap0_inv|]. split; [apply NIL|lia].
  - destruct IH as (I0 & _ & _). split; auto. split; [apply NIL|lia].
  - destruct IH as (I0 & C0 & L0).
    destruct (subscribe_ok ids (fun i => log (w i)) ND mc ok ans pos c c' pos' q I0) as (I1 & C1 & L1); auto.
    + intros i p r Hin Ea. destruct (A i p r Hin Ea) as (d & s & cnt & room & batch & PF & R & E0).
      destruct (regions_step ids mc pos c) as [c1 want] eqn:ER.
      destruct (regions_ok ids (fun i => log (w i)) ND mc pos c c1 want I0 ER) as (_ & _ & _ & P & _).
      destruct (P i p Hin) as [Hi _]. destruct (HW i Hi) as [R1 O1].
      eapply C85_read_complete_partial; eauto.
    + split; auto. split; [|lia]. apply complete_all_app with (mid := pos); auto.
Qed.

Theorem C86_complete_partial : forall ids max_cache w c from pos got,
  NoDup ids -> (forall i, In i ids -> reachable (w i) /\ opened (log (w i))) ->
  session ids max_cache w c from pos got -> complete_all ids (fun i => log (w i)) from pos got.
Proof. intros ids mc w c from pos got ND HW S0. apply (session_inv ids mc w c from pos got ND HW S0). Qed.
Print Assumptions C86_complete_partial.

(* If every region has an answer, the subscriber gets something and moves on. *)
Theorem C86_moves : forall ids max_cache w c from pos got answers c' pos' q,
  NoDup ids -> ids <> [] -> (forall i, In i ids -> reachable (w i) /\ opened (log (w i))) ->
  (forall i o, In i ids -> In o (log (w i)) -> o_ts o <= 9223372036854775807) ->
  session ids max_cache w c from pos got ->
  (forall i p r, In (i, p) (snd (regions_step ids max_cache pos c)) -> answers i = Some r ->
     exists d s cnt room batch, prefix d (log (w i)) /\ replica d s /\ read_binlog s p cnt room batch = Ok r) ->
  (forall i, In i ids -> exists e r, answers i = Some (e :: r)) ->
  subscribe ids max_cache true answers pos c = (c', pos', q) -> q <> [] /\ pos < pos'.
Proof.
  intros ids mc w c from pos got ans c' pos' q ND NE HW B S0 A AN E.
  destruct (session_inv ids mc w c from pos got ND HW S0) as (I0 & _ & _).
  eapply (subscribe_moves ids (fun i => log (w i)) ND mc ans pos c c' pos' q); eauto.
  intros i p r Hin Ea. destruct (A i p r Hin Ea) as (d & s & cnt & room & batch & PF & R & E0).
  destruct (regions_step ids mc pos c) as [c1 want] eqn:ER.
  destruct (regions_ok ids (fun i => log (w i)) ND mc pos c c1 want I0 ER) as (_ & _ & _ & P & _).
  destruct (P i p Hin) as [Hi _]. destruct (HW i Hi) as [R1 O1].
  eapply C85_read_complete_partial; eauto.
Qed.
Print Assumptions C86_moves.

(* A subscription's loop over the merged binlogs ends with all of them; *)
Theorem C86_transfer : forall q, transfer (S (length q)) None q [] = Some q.
Proof.
  assert (X : forall q out, transfer (S (length q)) None q out = Some (out ++ q)).
  { induction q as [|[i [t [v|]]] q IH]; intros out; [cbn; now rewrite app_nil_r|..];
      cbn [length transfer] in *; rewrite IH, <- app_assoc; reflexivity. }
  intros q. apply X.
Qed.
Print Assumptions C86_transfer.

(* that of a flash back read never ends once it meets a transaction that its filters refuse. *)
Theorem C86_flash_back_refuted : forall wanted i t v rest out fuel, wanted (t, v) = false ->
  transfer fuel (Some wanted) ((i, (t, Some v)) :: rest) out = None.
Proof.
  intros wanted i t v rest out fuel W. induction fuel as [|fuel IH]; cbn [transfer]; auto. now rewrite W.
Qed.
Print Assumptions C86_flash_back_refuted.
Example C86_flash_back : (fun tv : Z * nat => snd tv =? 3)%nat (5, 4%nat) = false.
Proof. reflexivity. Qed.

(* ---------- a session ---------- *)

Definition world_of (h : list act) : world := match plays world0 h with Some w => w | None => world0 end.
Definition history2 : list act :=
  [AIssue 105 UFake; AFake 105; AIssue 115 (UStart 4); APrewrite 115 1 4; AIssue 160 (UCommit 115);
   ADecide 115 (Some 160); ACommit 115 160 1; AIssue 210 UFake; AFake 210].
Definition two (i : Z) : world := if i =? 1 then world_of history1 else world_of history2.
Definition answers1 (i : Z) : option (list (Z * option nat)) :=
  if i =? 1 then Some [(150, Some 7%nat); (180, Some 9%nat)] else Some [(160, Some 4%nat); (210, None)].
Definition answers2 (i : Z) : option (list (Z * option nat)) := if i =? 1 then Some [(200, None)] else None.

(* Region 1 is read up to 180 and region 2 up to 210: delivered are the binlogs up to 180.  With a
   cache of one binlog, region 2 is not asked again before its binlog of 210 is delivered. *)
Example C86_session : exists c c', NoDup [1; 2] /\
  (forall i, In i [1; 2] -> reachable (two i) /\ opened (log (two i))) /\
  session [1; 2] 1 two c 105 180 [(1, (150, Some 7%nat)); (2, (160, Some 4%nat)); (1, (180, Some 9%nat))] /\
  subscribe [1; 2] 0 true answers2 180 c = (c', 200, [(1, (200, None))]).
Proof.
  exists (Cap 180 [(1, []); (2, [(210, None)])]), (Cap 200 [(1, []); (2, [(210, None)])]).
  split; [repeat constructor; cbn; intuition congruence|]. split; [|split; [|reflexivity]].
  - intros i [<-|[<-|[]]]; (split; [|eexists; eexists; split; reflexivity]).
    + apply (plays_reachable history1). reflexivity.
    + apply (plays_reachable history2). reflexivity.
  - apply (se_subscribe [1; 2] 1 two cap0 105 105 [] true answers1 _ 180
             [(1, (150, Some 7%nat)); (2, (160, Some 4%nat)); (1, (180, Some 9%nat))]); [constructor| |reflexivity].
    intros i p r Hin Ea. cbn in Hin. destruct Hin as [X|[X|[]]]; injection X as <- <-; cbn in Ea; injection Ea as <-.
    + exists (log (two 1)), (apply_all st0 (log (two 1)) false), 10, 2%nat, 10%nat.
      split; [exists []; now rewrite app_nil_r|]. split; [|reflexivity].
      apply (apply_all_replica false (log (two 1)) [] st0). constructor.
    + exists (log (two 2)), (apply_all st0 (log (two 2)) false), 10, 10%nat, 10%nat.
      split; [exists []; now rewrite app_nil_r|]. split; [|reflexivity].
      apply (apply_all_replica false (log (two 2)) [] st0). constructor.
Qed.
