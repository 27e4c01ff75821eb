(* What is true of every log the writers make. *)
From Coq Require Import List ZArith Bool Lia Relations.
From Verif Require Import Binlog.Spec.
Import ListNotations.
Open Scope Z_scope.

Definition just (w : world) (o : op) : Prop :=
  match o_kind o with
  | Fake => In (o_ts o, UFake) (issued w)
  | Prewrite => In (o_ts o, UStart (o_val o)) (issued w) /\ o_start o = o_ts o
  | Commit => In (o_start o, Some (o_ts o)) (decided w)
  | Rollback => In (o_start o, None) (decided w) /\
      (o_ts o = o_start o /\ (exists v, In (o_ts o, UStart v) (issued w)) \/
       In (o_ts o, URoll (o_start o)) (issued w) /\ o_start o < o_ts o)
  end.

(* the prewrite of [s] is in [l], and everything before it is older than [c] *)
Definition prewritten (l : list op) (s c : Z) : Prop :=
  s < c /\ exists p1 p p2, l = p1 ++ p :: p2 /\ o_kind p = Prewrite /\ o_ts p = s /\ forall o, In o p1 -> o_ts o < c.

Record winv (w : world) : Prop := {
  i_clock : 0 <= clock w;
  i_pos : forall t u, In (t, u) (issued w) -> 0 < t <= clock w;
  i_uniq : forall t u u', In (t, u) (issued w) -> In (t, u') (issued w) -> u = u';
  i_dec : forall s d d', In (s, d) (decided w) -> In (s, d') (decided w) -> d = d';
  i_com : forall s c, In (s, Some c) (decided w) -> In (c, UCommit s) (issued w);
  i_just : forall o, In o (log w) -> just w o;
  i_pre : forall s c, In (c, UCommit s) (issued w) -> prewritten (log w) s c;
  i_order : forall l1 o l2, log w = l1 ++ o :: l2 -> o_kind o = Commit -> prewritten l1 (o_start o) (o_ts o)
}.

Lemma just_ts w o : winv w -> just w o -> 0 < o_ts o <= clock w.
Proof.
  intros I0 J. unfold just in J. destruct (o_kind o).
  - eapply i_pos; eauto.
  - destruct J. eapply i_pos; eauto.
  - apply (i_com w I0) in J. eapply i_pos; eauto.
  - destruct J as [_ [[_ [v J]]|[J _]]]; eapply i_pos; eauto.
Qed.

Lemma app_snoc_split {A} (l : list A) x l1 o l2 : l ++ [x] = l1 ++ o :: l2 ->
  (exists l2', l2 = l2' ++ [x] /\ l = l1 ++ o :: l2') \/ (l2 = [] /\ l1 = l /\ o = x).
Proof.
  intros E. destruct l2 as [|y l2] using rev_ind.
  - apply app_inj_tail in E as [-> ->]. auto.
  - left. clear IHl2. rewrite app_comm_cons, app_assoc in E. apply app_inj_tail in E as [-> ->]. eauto.
Qed.

Lemma prewritten_more l x s c : prewritten l s c -> prewritten (l ++ x) s c.
Proof.
  intros (L & p1 & p & p2 & -> & K & T & B). split; auto. exists p1, p, (p2 ++ x). split; [now rewrite <- app_assoc|auto].
Qed.

Lemma winv_append w o : winv w -> just w o ->
  (o_kind o = Commit -> prewritten (log w) (o_start o) (o_ts o)) -> winv (append w o).
Proof.
  intros [CK P U D C J R OR] JO PC. constructor; cbn; auto.
  - intros x Hx. apply in_app_iff in Hx as [Hx|[<-|[]]]; [apply (J x Hx)|exact JO].
  - intros s c Hc. apply prewritten_more. auto.
  - intros l1 x l2 E K. apply app_snoc_split in E as [(l2' & -> & E)|(-> & -> & ->)]; eauto.
Qed.

Lemma winv_step w w' : winv w -> step w w' -> winv w'.
Proof.
  intros I0 S0. destruct S0 as [w t u T X|w s d N X|w s v n X|w s c n X|w s X Y|w s t X Y Z0|w t X].
  - destruct I0 as [CK P U D C J R OR]. constructor; cbn; auto; try lia.
    + intros t' u' [E|Hin]; [injection E as <- <-|apply P in Hin; lia].
      split; lia.
    + intros t' u1 u2 [E1|H1] [E2|H2].
      * congruence.
      * injection E1 as <- <-. apply P in H2. lia.
      * injection E2 as <- <-. apply P in H1. lia.
      * eauto.
    + intros x Hx. specialize (J x Hx). unfold just in *. cbn. destruct (o_kind x); intuition eauto.
      destruct H2 as [v H2]. left. eauto.
    + intros s c [E|Hc]; [|auto]. injection E as <- ->.
      destruct X as (o & Ho & K & T0). apply in_split in Ho as (p1 & p2 & E).
      assert (B : forall x, In x (log w) -> o_ts x < t).
      { intros x Hx. pose proof (just_ts w x (Build_winv w CK P U D C J R OR) (J x Hx)). lia. }
      split; [rewrite <- T0; apply B; rewrite E, in_app_iff; cbn; auto|].
      exists p1, o, p2. repeat split; auto. intros x Hx. apply B. rewrite E, in_app_iff. auto.
  - destruct I0 as [CK P U D C J R OR]. constructor; cbn; auto; try lia.
    + intros s' d1 d2 [E1|H1] [E2|H2]; [congruence| | |eauto].
      * injection E1 as <- <-. exfalso. eapply N; eauto.
      * injection E2 as <- <-. exfalso. eapply N; eauto.
    + intros s' c [E|H1]; [injection E as -> ->|]; auto.
    + intros x Hx. specialize (J x Hx). unfold just in *. cbn. destruct (o_kind x); intuition eauto.
  - apply winv_append; [exact I0| |discriminate]. unfold just. cbn. auto.
  - apply winv_append; [exact I0|exact X|]. intros _. cbn. apply (i_pre w I0). now apply (i_com w I0).
  - apply winv_append; [exact I0| |discriminate]. unfold just. cbn. auto.
  - apply winv_append; [exact I0| |discriminate]. unfold just. cbn. auto.
  - apply winv_append; [exact I0| |discriminate]. exact X.
Qed.

Lemma winv_reachable w : reachable w -> winv w.
Proof.
  unfold reachable. intros R. induction R as [|w w' S0 R IH]; [|eapply winv_step; eauto].
  constructor; cbn; try easy. intros l1 o l2 E. now destruct l1.
Qed.

(* The facts the replicas rely on. *)
Record honest (l : list op) : Prop := {
  h_pos : forall o, In o l -> 0 < o_ts o;
  h_commit : forall o o', In o l -> In o' l -> o_kind o = Commit -> o_ts o' = o_ts o ->
    o_kind o' = Commit /\ o_start o' = o_start o;
  h_prewrite : forall o o', In o l -> In o' l -> o_kind o = Prewrite -> o_ts o' = o_ts o ->
    o_start o' = o_ts o /\ (o_kind o' = Prewrite /\ o_val o' = o_val o \/ o_kind o' = Rollback);
  h_decided : forall o o', In o l -> In o' l -> o_kind o = Commit -> (o_kind o' = Commit \/ o_kind o' = Rollback) ->
    o_start o' = o_start o -> o_kind o' = Commit /\ o_ts o' = o_ts o;
  h_after : forall o, In o l -> (o_kind o = Commit \/ o_kind o = Rollback) ->
    o_start o < o_ts o \/ (o_kind o = Rollback /\ o_start o = o_ts o);
  h_fake : forall o o', In o l -> In o' l -> o_kind o = Fake -> o_ts o' = o_ts o -> o_kind o' = Fake;
  h_roll : forall o o', In o l -> In o' l -> o_kind o = Rollback -> o_start o < o_ts o -> o_ts o' = o_ts o ->
    o_kind o' = Rollback /\ o_start o' = o_start o;
  h_order : forall l1 o l2, l = l1 ++ o :: l2 -> o_kind o = Commit -> prewritten l1 (o_start o) (o_ts o)
}.

Lemma reachable_honest w : reachable w -> honest (log w).
Proof.
  intros R. apply winv_reachable in R. pose proof R as I0. destruct I0 as [CK P U D C J PR OR].
  constructor.
  - intros o Ho. apply (just_ts w o R). auto.
  - intros o o' Ho Ho' K T. pose proof (J o Ho) as J1. pose proof (J o' Ho') as J2. unfold just in *. rewrite K in J1.
    apply C in J1. rewrite T in J2. destruct (o_kind o') eqn:K'.
    + pose proof (U _ _ _ J1 J2). discriminate.
    + destruct J2 as [J2 _]. pose proof (U _ _ _ J1 J2). discriminate.
    + apply C in J2. pose proof (U _ _ _ J1 J2). split; congruence.
    + destruct J2 as [_ [[_ [v J2]]|[J2 _]]]; pose proof (U _ _ _ J1 J2); discriminate.
  - intros o o' Ho Ho' K T. pose proof (J o Ho) as J1. pose proof (J o' Ho') as J2. unfold just in *. rewrite K in J1.
    destruct J1 as [J1 _]. rewrite T in J2. destruct (o_kind o') eqn:K'.
    + pose proof (U _ _ _ J1 J2). discriminate.
    + destruct J2 as [J2 E]. pose proof (U _ _ _ J1 J2). split; [congruence|]. left. split; congruence.
    + apply C in J2. pose proof (U _ _ _ J1 J2). discriminate.
    + destruct J2 as [_ [[E [v J2]]|[J2 _]]]; pose proof (U _ _ _ J1 J2); [|discriminate]. split; [congruence|auto].
  - intros o o' Ho Ho' K K' E. pose proof (J o Ho) as J1. pose proof (J o' Ho') as J2. unfold just in *. rewrite K in J1.
    rewrite E in J2. destruct K' as [K'|K']; rewrite K' in J2.
    + pose proof (D _ _ _ J1 J2). split; congruence.
    + destruct J2 as [J2 _]. pose proof (D _ _ _ J1 J2). discriminate.
  - intros o Ho K. pose proof (J o Ho) as J1. unfold just in J1. destruct K as [K|K]; rewrite K in J1.
    + apply C in J1. apply PR in J1. destruct J1. auto.
    + destruct J1 as [_ [[E _]|[_ L]]]; auto.
  - intros o o' Ho Ho' K T. pose proof (J o Ho) as J1. pose proof (J o' Ho') as J2. unfold just in *. rewrite K in J1.
    rewrite T in J2. destruct (o_kind o') eqn:K'; auto; exfalso.
    + destruct J2 as [J2 _]. pose proof (U _ _ _ J1 J2). discriminate.
    + apply C in J2. pose proof (U _ _ _ J1 J2). discriminate.
    + destruct J2 as [_ [[_ [v J2]]|[J2 _]]]; pose proof (U _ _ _ J1 J2); discriminate.
  - intros o o' Ho Ho' K LT T. pose proof (J o Ho) as J1. pose proof (J o' Ho') as J2. unfold just in *. rewrite K in J1.
    destruct J1 as [_ [[E _]|[J1 _]]]; [lia|]. rewrite T in J2. destruct (o_kind o') eqn:K'.
    + pose proof (U _ _ _ J1 J2). discriminate.
    + destruct J2 as [J2 _]. pose proof (U _ _ _ J1 J2). discriminate.
    + apply C in J2. pose proof (U _ _ _ J1 J2). discriminate.
    + destruct J2 as [_ [[_ [v J2]]|[J2 _]]]; pose proof (U _ _ _ J1 J2); [discriminate|]. split; congruence.
  - exact OR.
Qed.

Lemma honest_prefix a b : honest (a ++ b) -> honest a.
Proof.
  intros [P C W D A F RL OR]. constructor; intros.
  - apply P. rewrite in_app_iff. auto.
  - eapply C; eauto; rewrite in_app_iff; auto.
  - eapply W; eauto; rewrite in_app_iff; auto.
  - eapply D; eauto; rewrite in_app_iff; auto.
  - eapply A; eauto; rewrite in_app_iff; auto.
  - eapply F; eauto; rewrite in_app_iff; auto.
  - eapply RL; eauto; rewrite in_app_iff; auto.
  - eapply OR; eauto. subst a. rewrite <- app_assoc. reflexivity.
Qed.
