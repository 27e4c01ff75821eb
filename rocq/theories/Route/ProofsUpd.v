From Verif.Common Require Import Bytes KV.
From Verif.Route Require Import Model Spec Proofs.
From Coq Require Import List ZArith Lia Bool Sorted Permutation.
Import ListNotations.
Local Open Scope Z_scope.

(* ---- more about tilings ---- *)
Ltac sp := repeat match goal with |- _ /\ _ => split end.
Lemma tile_cons s x y l e : tile s (x :: y :: l) e <->
  r_start x = s /\ before_end s (r_end x) /\ r_end x <> [] /\ tile (r_end x) (y :: l) e.
Proof. reflexivity. Qed.
Lemma tile_app s X Y e : X <> [] -> Y <> [] ->
  (tile s (X ++ Y) e <-> exists m, m <> [] /\ tile s X m /\ tile m Y e).
Proof.
  intros NX NY. revert s. induction X as [|x X IH]; [congruence|]. intros s. cbn [app].
  destruct X as [|x' X].
  - cbn [app tile]. destruct Y as [|y Y]; [congruence|]. split.
    + intros (E & B & N & T). exists (r_end x). sp; auto.
    + intros (m & N & (E & B & EM) & T). subst m. sp; auto.
  - cbn [app]. cbn [app] in IH. rewrite tile_cons, IH by congruence. setoid_rewrite tile_cons. split.
    + intros (E & B & N & m & NM & T1 & T2). exists m. sp; auto.
    + intros (m & NM & (E & B & N & T1) & T2). sp; auto. exists m. auto.
Qed.
Lemma tile_head_eq s r rs e : tile s (r :: rs) e -> r_start r = s.
Proof. cbn. tauto. Qed.
Lemma tile_last_eq s rs r e : tile s (rs ++ [r]) e -> r_end r = e.
Proof.
  destruct rs as [|x rs]; [cbn; tauto|]. intros T. apply tile_app in T; try congruence.
  destruct T as (m & _ & _ & T). cbn in T. tauto.
Qed.
(* the middle part of a tiling can be exchanged for another tiling of the same interval *)
Lemma tile_mid s0 A M B e0 : M <> [] -> tile s0 (A ++ M ++ B) e0 ->
  exists s e, tile s M e /\ (forall L, tile s L e -> tile s0 (A ++ L ++ B) e0).
Proof.
  intros NM T.
  assert (NN : forall s L e, tile s L e -> L <> []) by (intros s [|] e; cbn; [tauto|congruence]).
  assert (R : forall s0, tile s0 (M ++ B) e0 -> exists s e, s = s0 /\ tile s M e /\ (forall L, tile s L e -> tile s0 (L ++ B) e0)).
  { intros s T'. destruct B as [|b B].
    - rewrite app_nil_r in T'. exists s, e0. repeat split; auto. intros L. rewrite app_nil_r. auto.
    - apply tile_app in T'; try congruence. destruct T' as (m & N & T1 & T2). exists s, m. repeat split; auto.
      intros L TL. apply tile_app; eauto; congruence. }
  destruct A as [|a A].
  - destruct (R _ T) as (s & e & -> & H1 & H2). eauto.
  - apply tile_app in T; try congruence; [|destruct M; [congruence|discriminate]].
    destruct T as (m & N & T1 & T2). destruct (R _ T2) as (s & e & -> & H1 & H2). exists m, e. split; auto.
    intros L TL. apply (tile_app s0 (a :: A) (L ++ B)); [congruence| |eauto].
    specialize (NN _ _ _ TL). destruct L; [congruence|discriminate].
Qed.

(* ---- the maps ---- *)
Lemma ent_start_inj s rs e a b : tile s rs e -> In a rs -> In b rs -> r_start a = r_start b -> a = b.
Proof.
  intros T Ia Ib E. pose proof (tile_forall_start _ _ _ T) as F. rewrite Forall_forall in F.
  apply (sorted_owner_unique rs a b (r_start a)); auto.
  - eapply tile_sorted; eauto.
  - split; [apply upto_refl|apply F; auto].
  - rewrite E. split; [apply upto_refl|apply F; auto].
Qed.
Lemma good_infos t rs r : good t rs -> In r rs -> t_infos t (r_id r) = Some r.
Proof. intros [_ [_ F]] I. rewrite Forall_forall in F. auto. Qed.
Lemma good_id_inj t rs a b : good t rs -> In a rs -> In b rs -> r_id a = r_id b -> a = b.
Proof. intros G Ia Ib E. apply (good_infos _ _ _ G) in Ia. apply (good_infos _ _ _ G) in Ib. rewrite E in Ia. congruence. Qed.

Lemma kdel_in k (s : @kv Z) e : In e (kdel k s) <-> In e s /\ fst e <> k.
Proof.
  unfold kdel, kfilter. rewrite filter_In, negb_true_iff, beqb_neq. tauto.
Qed.
Lemma map_insert_in k v (s : @kv Z) e : ksorted s ->
  (In e (map_insert k v s) <-> In e s \/ (e = (k, v) /\ ~ In k (map fst s))).
Proof.
  intros S. unfold map_insert. destruct (kget k s) as [v'|] eqn:E.
  - split; auto. intros [|[-> N]]; auto. exfalso. apply N. apply kget_in in E; auto. apply (in_map fst) in E. auto.
  - assert (N : ~ In k (map fst s)).
    { intros I. apply in_map_iff in I. destruct I as ([k' v'] & <- & I). cbn in E. apply kget_in in I; auto. congruence. }
    destruct e as [j w]. rewrite <- (kget_in j w (kput k v s)) by (apply kput_sorted; auto). rewrite kget_put by auto.
    rewrite <- (kget_in j w s) by auto. destruct (beqb j k) eqn:B.
    + apply beqb_eq in B. subst j. split; [intros X; injection X as ->; auto|]. intros [X|[X _]]; congruence.
    + apply beqb_neq in B. split; auto. intros [X|[X _]]; auto. congruence.
Qed.
Lemma map_insert_sorted k v (s : @kv Z) : ksorted s -> ksorted (map_insert k v s).
Proof. intros S. unfold map_insert. destruct (kget k s); auto. apply kput_sorted; auto. Qed.
Lemma map_insert_starts k v (s : @kv Z) j : ksorted s -> (In j (map fst (map_insert k v s)) <-> j = k \/ In j (map fst s)).
Proof.
  intros S. rewrite !in_map_iff. split.
  - intros (e & <- & I). apply map_insert_in in I; auto. destruct I as [I|[-> N]]; eauto.
  - intros [->|(e & <- & I)].
    + destruct (in_dec (list_eq_dec Z.eq_dec) k (map fst s)) as [D|D].
      * apply in_map_iff in D. destruct D as (e & <- & I). exists e. split; auto. apply map_insert_in; auto.
      * exists (k, v). split; auto. apply map_insert_in; auto.
    + exists e. split; auto. apply map_insert_in; auto.
Qed.

(* clear_region *)
Lemma clear_region_sorted cs : forall t, ksorted (t_keys t) -> ksorted (t_keys (clear_region t cs)).
Proof.
  unfold clear_region. induction cs as [|c cs IH]; intros t S; cbn; auto. apply IH. cbn. apply kfilter_sorted. auto.
Qed.
Lemma clear_region_keys cs : forall t e,
  In e (t_keys (clear_region t cs)) <-> In e (t_keys t) /\ ~ In (fst e) (map fst cs).
Proof.
  unfold clear_region. induction cs as [|c cs IH]; intros t e; cbn [fold_left map In]; [tauto|].
  rewrite IH. cbn [t_keys]. rewrite kdel_in. split; [intros [[? ?] ?]|intros [? ?]]; repeat split; auto.
  intros [E|I]; [congruence|auto].
Qed.
Lemma clear_region_infos cs : forall t i,
  t_infos (clear_region t cs) i = if existsb (Z.eqb i) (map snd cs) then None else t_infos t i.
Proof.
  unfold clear_region. induction cs as [|c cs IH]; intros t i; cbn [fold_left map existsb]; auto.
  rewrite IH. cbn [t_infos]. unfold set_info. destruct (existsb (Z.eqb i) (map snd cs)); [rewrite orb_true_r; auto|].
  rewrite orb_false_r. auto.
Qed.

(* what the regions of a heartbeat look like *)
Definition sane (r : region) : Prop := r_deleted r = false /\ 0 <= r_ver r /\ before_end (r_start r) (r_end r).
Definition newer (t : table) (r : region) : Prop :=
  match t_infos t (r_id r) with Some o => r_ver o <= r_ver r | None => True end.

Lemma update_region_eq t r : sane r -> newer t r ->
  update_region t r = {| t_keys := map_insert (r_start r) (r_id r) (t_keys t);
                         t_infos := set_info (t_infos t) (r_id r) (Some r) |}.
Proof.
  intros (D & V & _) N. unfold update_region, newer in *. rewrite D.
  destruct (t_infos t (r_id r)) as [o|]; replace (r_ver r <? _) with false; auto; symmetry; apply Z.ltb_ge; auto.
Qed.
Lemma update_all_sorted L : forall t, Forall sane L -> Forall (newer t) L -> NoDup (map r_id L) ->
  ksorted (t_keys t) -> ksorted (t_keys (fold_left update_region L t)).
Proof.
  induction L as [|r L IH]; intros t F N D S; cbn; auto. inversion F; inversion N; inversion D; subst.
  rewrite update_region_eq by auto. apply IH; auto.
  - rewrite Forall_forall in *. intros a I. specialize (H6 a I). unfold newer in *. cbn. unfold set_info.
    destruct (Z.eqb_spec (r_id a) (r_id r)); auto. exfalso. apply H9. rewrite <- e. apply in_map. auto.
  - cbn. apply map_insert_sorted. auto.
Qed.
Lemma update_all_infos L : forall t, Forall sane L -> Forall (newer t) L -> NoDup (map r_id L) ->
  (forall r, In r L -> t_infos (fold_left update_region L t) (r_id r) = Some r) /\
  (forall i, ~ In i (map r_id L) -> t_infos (fold_left update_region L t) i = t_infos t i).
Proof.
  induction L as [|r L IH]; intros t F N D; cbn [fold_left]; [split; [intros r []|auto]|].
  inversion F; inversion N; inversion D; subst. rewrite update_region_eq by auto.
  edestruct (IH {| t_keys := map_insert (r_start r) (r_id r) (t_keys t); t_infos := set_info (t_infos t) (r_id r) (Some r) |}) as [IH1 IH2]; auto.
  { rewrite Forall_forall in *. intros a I. specialize (H6 a I). unfold newer in *. cbn. unfold set_info.
    destruct (Z.eqb_spec (r_id a) (r_id r)); auto. exfalso. apply H9. rewrite <- e. apply in_map. auto. }
  split.
  - intros a [<-|I]; auto. rewrite IH2 by auto. cbn. unfold set_info. rewrite Z.eqb_refl. auto.
  - intros i NI. cbn in NI. rewrite IH2 by tauto. cbn. unfold set_info. destruct (Z.eqb_spec i (r_id r)); auto. exfalso. apply NI. auto.
Qed.
Lemma update_all_keys L : forall t, Forall sane L -> Forall (newer t) L -> NoDup (map r_id L) -> NoDup (map r_start L) ->
  ksorted (t_keys t) ->
  forall e, In e (t_keys (fold_left update_region L t)) <->
            In e (t_keys t) \/ (exists r, In r L /\ e = ent r /\ ~ In (r_start r) (map fst (t_keys t))).
Proof.
  induction L as [|r L IH]; intros t F N D DS S e; cbn [fold_left].
  - split; auto. intros [|(r & [] & _)]; auto.
  - inversion F; inversion N; inversion D; inversion DS; subst. rewrite update_region_eq by auto.
    rewrite IH; auto; cbn [t_keys].
    + rewrite map_insert_in by auto. split.
      * intros [[I|[-> NI]]|(a & I & -> & NI)]; auto.
        -- right. exists r. cbn. auto.
        -- rewrite map_insert_starts in NI by auto. right. exists a. cbn. split; auto.
      * intros [I|(a & [<-|I] & -> & NI)]; auto. right. exists a. rewrite map_insert_starts by auto. repeat split; auto.
        intros [X|X]; auto. apply H13. rewrite <- X. apply in_map. auto.
    + rewrite Forall_forall in *. intros a I. specialize (H6 a I). unfold newer in *. cbn. unfold set_info.
      destruct (Z.eqb_spec (r_id a) (r_id r)); auto. exfalso. apply H9. rewrite <- e0. apply in_map. auto.
    + apply map_insert_sorted. auto.
Qed.
Lemma tile_starts_nodup s L e : tile s L e -> NoDup (map r_start L).
Proof.
  intros T. apply tile_sorted in T. induction T as [|a l S IH F]; cbn; constructor; auto.
  intros I. apply in_map_iff in I. destruct I as (b & E & I). rewrite Forall_forall in F. destruct (F _ I) as (_ & _ & L).
  rewrite E in L. eapply below_irrefl; eauto.
Qed.

(* ---- the joint update of a group of regions ---- *)
Definition group_ok (t : table) (M L : list region) (cs : @kv Z) : Prop :=
  exists o r0 news, L = r0 :: news /\ In o M /\ r_id o = r_id r0 /\ r_ver o <= r_ver r0 /\
    Forall sane L /\ NoDup (map r_id L) /\ Forall (fun r => t_infos t (r_id r) = None) news /\
    (cs = map ent M \/ (cs = [] /\ M = [o] /\ r_start o = r_start r0)).

Lemma commit_good t A M B L cs s e :
  good t (A ++ M ++ B) -> tile s M e -> tile s L e -> group_ok t M L cs ->
  good (fold_left update_region L (clear_region t cs)) (A ++ L ++ B).
Proof.
  intros G TM TL (o & r0 & news & EL & Io & Eid & Ev & FS & ND & FN & CS).
  set (rs := A ++ M ++ B) in *.
  assert (NM : M <> []) by (destruct M; [destruct Io|congruence]).
  pose proof G as [[T NDr] [K FI]]. rewrite Forall_forall in FI.
  destruct (tile_mid _ _ _ _ _ NM T) as (s' & e' & TM' & REP).
  assert (s' = s /\ e' = e) as [-> ->].
  { destruct M as [|m M] using rev_ind; [congruence|]. clear IHM.
    rewrite <- (tile_last_eq _ _ _ _ TM), <- (tile_last_eq _ _ _ _ TM').
    destruct (tile_start _ _ _ TM) as (h & M' & EM & <-). rewrite EM in TM'. apply tile_head_eq in TM'. auto. }
  pose proof (REP L TL) as T'.
  assert (Iors : In o rs) by (unfold rs; apply in_or_app; right; apply in_or_app; auto).
  assert (NEW : Forall (newer (clear_region t cs)) L).
  { subst L. constructor.
    - unfold newer. rewrite clear_region_infos. destruct (existsb _ _); auto. rewrite <- Eid, (FI o Iors). auto.
    - eapply Forall_impl; [|exact FN]. intros a N. unfold newer. rewrite clear_region_infos. rewrite N. destruct (existsb _ _); auto. }
  assert (SRT : ksorted (t_keys t)) by (rewrite K; eapply tile_ksorted; exact T).
  assert (SRT' : ksorted (t_keys (clear_region t cs))) by (apply clear_region_sorted; auto).
  destruct (update_all_infos L (clear_region t cs) FS NEW ND) as [I1 I2].
  (* identifiers of L do not occur outside M *)
  assert (OUT : forall x, In x A \/ In x B -> ~ In (r_id x) (map r_id L) /\ ~ In (r_id x) (map r_id M)).
  { intros x X. assert (Ix : In x rs) by (unfold rs; rewrite !in_app_iff; tauto).
    assert (NMx : ~ In (r_id x) (map r_id M)).
    { intros C. unfold rs in NDr. rewrite !map_app in NDr.
      destruct X as [X|X]; apply (in_map r_id) in X.
      - clear - NDr X C. induction A as [|a A IH]; cbn in *; [destruct X|]. inversion NDr; subst.
        destruct X as [X|X]; [apply H1; rewrite X, !in_app_iff; auto|auto].
      - assert (NMB : NoDup (map r_id M ++ map r_id B)) by (clear - NDr; induction A; cbn in *; auto; inversion NDr; auto).
        clear - NMB X C. induction M as [|a M IH]; cbn in *; [destruct C|]. inversion NMB; subst.
        destruct C as [C|C]; [apply H1; rewrite C, in_app_iff; auto|auto]. }
    split; auto. subst L. intros C. destruct C as [C|C].
    - apply NMx. rewrite <- C, <- Eid. apply in_map. auto.
    - apply in_map_iff in C. destruct C as (y & Ey & Iy). rewrite Forall_forall in FN. specialize (FN _ Iy). cbn in FN.
      rewrite Ey in FN. rewrite (FI x Ix) in FN. discriminate. }
  assert (CSOUT : forall x, ~ In (r_id x) (map r_id M) -> existsb (Z.eqb (r_id x)) (map snd cs) = false).
  { intros x X. destruct CS as [->|(-> & _ & _)]; auto. destruct (existsb _ _) eqn:EX; auto. exfalso. apply existsb_exists in EX.
    destruct EX as (j & J & EJ). apply Z.eqb_eq in EJ. subst j. apply X. rewrite map_map in J. exact J. }
  split; [split; auto|].
  - (* distinct identifiers *)
    rewrite !map_app. assert (NA : NoDup (map r_id A ++ map r_id B)).
    { unfold rs in NDr. rewrite !map_app in NDr. clear - NDr.
      revert NDr. generalize (map r_id A) (map r_id M) (map r_id B). intros a m b. induction a as [|x a IH]; cbn.
      - intros N. induction m; cbn in *; auto. inversion N; auto.
      - intros N. inversion N; subst. constructor; auto. rewrite !in_app_iff in *. tauto. }
    assert (GEN : forall a l b : list Z, NoDup (a ++ b) -> NoDup l -> (forall x, In x a \/ In x b -> ~ In x l) -> NoDup (a ++ l ++ b)).
    { clear. intros a l b. induction a as [|x a IH]; cbn; intros N NL D.
      - induction l as [|y l IHl]; cbn; auto. inversion NL; subst. constructor.
        + rewrite in_app_iff. intros [C|C]; auto. apply (D y); auto. left; auto.
        + apply IHl; auto. intros x X C. apply (D x X). right; auto.
      - inversion N; subst. constructor; [|apply IH; auto; intros y Y; apply D; tauto].
        rewrite !in_app_iff in *. intros [C|[C|C]]; try tauto. apply (D x); auto. }
    apply GEN; auto. intros i [X|X]; apply in_map_iff in X; destruct X as (x & <- & X); apply OUT; auto.
  - split.
    + apply ksorted_ext.
      * apply update_all_sorted; auto.
      * eapply tile_ksorted; exact T'.
      * intros en. rewrite update_all_keys; auto; [|eapply tile_starts_nodup; eauto].
        change (map (fun r => (r_start r, r_id r)) (A ++ L ++ B)) with (map ent (A ++ L ++ B)).
        change (map (fun r => (r_start r, r_id r)) rs) with (map ent rs) in K.
        assert (KEY : forall x, In x rs -> (In (ent x) (t_keys (clear_region t cs)) <-> (In x A \/ In x B \/ (cs = [] /\ In x M)))).
        { intros x Ix. rewrite clear_region_keys, K. cbn [fst ent]. split.
          - intros [_ NI]. unfold rs in Ix. rewrite !in_app_iff in Ix. destruct Ix as [X|[X|X]]; auto.
            destruct CS as [E|(E & _)]; auto. exfalso. apply NI. rewrite E, map_map. apply in_map_iff. exists x. auto.
          - intros X. split; [apply in_map; auto|]. destruct CS as [E|(E & _)]; [|rewrite E; auto]. rewrite E.
            intros C. rewrite map_map in C. apply in_map_iff in C. destruct C as (y & Ey & Iy). cbn in Ey.
            assert (y = x). { eapply ent_start_inj; [exact T| | |exact Ey]; auto. unfold rs. rewrite !in_app_iff. auto. }
            subst y. destruct X as [X|[X|[X _]]].
            + apply (OUT x); auto. apply in_map. auto.
            + apply (OUT x); auto. apply in_map. auto.
            + rewrite E in X. destruct M; [destruct Iy|discriminate]. }
        split.
        -- intros [I|(r & I & -> & _)].
           ++ pose proof I as I'. apply clear_region_keys in I'. destruct I' as [I' _]. rewrite K in I'.
              apply in_map_iff in I'. destruct I' as (x & <- & Ix). apply KEY in I; auto.
              destruct I as [X|[X|[E X]]]; try (apply in_map; rewrite !in_app_iff; tauto).
              destruct CS as [C|(_ & EM & ES)]; [rewrite C in E; destruct M; [congruence|discriminate]|].
              subst M. destruct X as [<-|[]]. unfold ent. rewrite Eid, ES. change (r_start r0, r_id r0) with (ent r0).
              apply in_map. subst L. rewrite !in_app_iff. right. left. left. auto.
           ++ apply in_map. rewrite !in_app_iff. auto.
        -- intros I. apply in_map_iff in I. destruct I as (x & <- & I). rewrite !in_app_iff in I.
           assert (AB : In x A \/ In x B -> In (ent x) (t_keys (clear_region t cs))).
           { intros X. apply KEY; [unfold rs; rewrite !in_app_iff; tauto|tauto]. }
           destruct I as [I|[I|I]]; auto.
           destruct (in_dec (list_eq_dec Z.eq_dec) (r_start x) (map fst (t_keys (clear_region t cs)))) as [D|D]; [|right; exists x; auto].
           left. apply in_map_iff in D. destruct D as ([k j] & Ek & D). cbn in Ek. subst k.
           pose proof D as D'. apply clear_region_keys in D'. destruct D' as [D' _]. rewrite K in D'. apply in_map_iff in D'.
           destruct D' as (y & Ey & Iy). rewrite <- Ey in D. apply KEY in D; auto. injection Ey as Es Ej.
           assert (Sx : upto s (r_start x) /\ before_end (r_start x) e).
           { pose proof (tile_forall_start _ _ _ TL) as F. rewrite Forall_forall in F. split; [apply F; auto|].
             apply (tile_in_end _ _ _ x TL); auto. }
           destruct (tile_owner _ _ _ (r_start x) TM (proj1 Sx) (proj2 Sx)) as (z & Iz & Oz).
           assert (y = z).
           { apply (sorted_owner_unique rs y z (r_start x)); auto.
             - eapply tile_sorted; exact T.
             - unfold rs. rewrite !in_app_iff. auto.
             - pose proof (tile_forall_start _ _ _ T) as F. rewrite Forall_forall in F. rewrite <- Es. split; [apply upto_refl|apply F; auto]. }
           subst z. destruct D as [D|[D|[E D]]].
           ++ exfalso. apply (OUT y); auto. apply in_map. auto.
           ++ exfalso. apply (OUT y); auto. apply in_map. auto.
           ++ destruct CS as [C|(_ & EM & ES)]; [rewrite C in E; destruct M; [congruence|discriminate]|].
              subst M. destruct D as [<-|[]]. assert (x = r0).
              { eapply ent_start_inj; [exact TL|auto|subst L; left; auto|]. congruence. }
              subst x. unfold ent. rewrite <- Eid, <- ES. apply KEY; [exact Iors|]. right. right. split; [auto|left; auto].
    + rewrite Forall_forall. intros x Ix. rewrite !in_app_iff in Ix. destruct Ix as [X|[X|X]]; auto.
      * destruct (OUT x (or_introl X)) as [O1 O2]. rewrite I2 by auto. rewrite clear_region_infos, CSOUT by auto.
        apply FI. unfold rs. rewrite !in_app_iff. auto.
      * destruct (OUT x (or_intror X)) as [O1 O2]. rewrite I2 by auto. rewrite clear_region_infos, CSOUT by auto.
        apply FI. unfold rs. rewrite !in_app_iff. auto.
Qed.
