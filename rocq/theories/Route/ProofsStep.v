From Verif.Common Require Import Bytes KV.
From Verif.Route Require Import Model Spec Proofs ProofsUpd.
From Coq Require Import List ZArith Lia Bool Sorted Permutation.
Import ListNotations.
Local Open Scope Z_scope.

Lemma existsb_eqb_in i l : existsb (Z.eqb i) l = true <-> In i l.
Proof.
  rewrite existsb_exists. split; [intros (j & J & E); apply Z.eqb_eq in E; subst; auto|].
  intros J. exists i. split; auto. apply Z.eqb_refl.
Qed.
Lemma snd_ent M : map snd (map ent M) = map r_id M.
Proof. rewrite map_map. reflexivity. Qed.

(* what the joint update leaves in region_info_mapping *)
Lemma commit_infos t A M B L cs i x :
  good t (A ++ M ++ B) -> group_ok t M L cs ->
  t_infos (fold_left update_region L (clear_region t cs)) i = Some x ->
  (In x L /\ r_id x = i) \/ (t_infos t i = Some x /\ ~ In i (map r_id L) /\ ~ In i (map r_id M)).
Proof.
  intros G (o & r0 & news & EL & Io & Eid & Ev & FS & ND & FN & CS) E.
  assert (Iors : In o (A ++ M ++ B)) by (rewrite !in_app_iff; auto).
  assert (NEW : Forall (newer (clear_region t cs)) L).
  { subst L. constructor.
    - unfold newer. rewrite clear_region_infos. destruct (existsb _ _); auto. rewrite <- Eid, (good_infos _ _ _ G Iors). auto.
    - eapply Forall_impl; [|exact FN]. intros a N. unfold newer. rewrite clear_region_infos. rewrite N. destruct (existsb _ _); auto. }
  destruct (update_all_infos L (clear_region t cs) FS NEW ND) as [I1 I2].
  destruct (in_dec Z.eq_dec i (map r_id L)) as [D|D].
  - left. apply in_map_iff in D. destruct D as (y & <- & D). rewrite I1 in E by auto. injection E as <-. auto.
  - right. rewrite I2 in E by auto. rewrite clear_region_infos in E.
    destruct (existsb (Z.eqb i) (map snd cs)) eqn:X; [discriminate|]. repeat split; auto.
    intros C. destruct CS as [->|(-> & -> & _)].
    + rewrite snd_ent in X. apply (existsb_eqb_in i (map r_id M)) in C. congruence.
    + destruct C as [C|[]]. apply D. subst L. left. congruence.
Qed.

(* ---- get_clear_regions ---- *)
Lemma kput_last (acc : @kv Z) k v : Forall (fun e => below (fst e) k) acc -> kput k v acc = acc ++ [(k, v)].
Proof.
  induction acc as [|[k' v'] acc IH]; intros F; cbn; auto. inversion F; subst. cbn in H1.
  unfold below in H1. rewrite (bcompare_antisym k' k), H1. cbn. rewrite IH; auto.
Qed.
Lemma collect_clear_ok t o : forall l k acc,
  k <> [] -> tile k l [] -> Forall (fun r => t_infos t (r_id r) = Some r) l ->
  In o l -> below k (r_start o) -> Forall (fun e => below (fst e) k) acc ->
  exists l1 l2, l = l1 ++ o :: l2 /\ l1 <> [] /\
    collect_clear t k (r_start o) false acc (map ent l) = acc ++ map ent (l1 ++ [o]).
Proof.
  induction l as [|a l IH]; intros k acc NK T F I LT FA; [destruct I|].
  assert (Ea : r_start a = k) by (apply tile_head_eq in T; auto).
  destruct I as [->|I]; [exfalso; rewrite Ea in LT; eapply below_irrefl; eauto|].
  destruct l as [|b l]; [destruct I|]. apply tile_cons in T. destruct T as (_ & B & NE & T).
  inversion F; subst. cbn [map]. unfold ent at 1. cbn [collect_clear].
  apply isnil_false in NK. rewrite NK. cbn [orb].
  replace (bltb (r_start o) (r_start a)) with false by (symmetry; apply bltb_false; right; auto).
  rewrite beqb_refl, H1. cbn [negb].
  rewrite kput_last by auto.
  assert (FA' : Forall (fun e => below (fst e) (r_end a)) (acc ++ [(r_start a, r_id a)])).
  { apply before_end_nonnil in B; auto. apply Forall_app. split.
    - eapply Forall_impl; [|exact FA]. intros e L. cbn in L. eapply below_trans; eauto.
    - repeat constructor. auto. }
  pose proof (tile_forall_start _ _ _ T) as TF. rewrite Forall_forall in TF. destruct (TF _ I) as [U _].
  destruct (beqb (r_end a) (r_start o)) eqn:EQ.
  - apply beqb_eq in EQ.
    assert (b = o) by (eapply ent_start_inj; [exact T|left; auto|auto|]; apply tile_head_eq in T; congruence).
    subst b. exists [a], l. split; auto. split; [congruence|].
    cbn [map]. unfold ent at 1. cbn [collect_clear]. apply isnil_false in NE. rewrite NE. cbn [orb].
    replace (bltb (r_start o) (r_end a)) with false by (symmetry; apply bltb_false; left; auto).
    apply beqb_eq in EQ. rewrite EQ. cbn [negb]. pose proof (Forall_inv H2) as HO. cbn in HO. rewrite HO.
    rewrite kput_last by auto. assert (XX : (if beqb (r_end o) (r_start o) then true else true) = true) by (destruct (beqb (r_end o) (r_start o)); reflexivity). rewrite XX.
    apply beqb_eq in EQ. rewrite EQ.
    assert (FIN : collect_clear t (r_end o) (r_start o) true ((acc ++ [(r_start a, r_id a)]) ++ [(r_start o, r_id o)]) (map ent l)
                  = (acc ++ [(r_start a, r_id a)]) ++ [(r_start o, r_id o)]).
    { destruct l as [|c l]; [reflexivity|]. apply tile_cons in T. destruct T as (_ & B2 & NE2 & _).
      cbn [map]. unfold ent. cbn [collect_clear].
      replace (bltb (r_start o) (r_end o)) with true. 2:{ symmetry. apply bltb_below. apply before_end_nonnil in B2; auto. rewrite EQ in B2. auto. }
      rewrite orb_true_r. auto. }
    etransitivity; [exact FIN|]. rewrite <- app_assoc. reflexivity.
  - apply beqb_neq in EQ.
    destruct (IH (r_end a) (acc ++ [(r_start a, r_id a)])) as (l1 & l2 & E1 & N1 & E2); auto.
    { destruct U as [U|U]; [congruence|auto]. }
    exists (a :: l1), l2. split; [rewrite E1; auto|]. split; [congruence|].
    etransitivity; [exact E2|]. rewrite <- app_assoc. reflexivity.
Qed.

Lemma get_clear_regions_ok t rs ns o :
  good t rs -> In o rs -> below ns (r_start o) ->
  get_clear_regions t ns (r_start o) = [] \/
  exists A M1 B a, rs = A ++ (M1 ++ [o]) ++ B /\ M1 <> [] /\ get_clear_regions t ns (r_start o) = map ent (M1 ++ [o]) /\
    In a M1 /\ r_start a = ns /\ tile ns (M1 ++ [o]) (r_end o) /\ ns <> [].
Proof.
  intros G I L. unfold get_clear_regions, lower_bound. pose proof (good_keys _ _ G) as K. rewrite K.
  destruct (skip_while_spec (fun x => bltb x ns) [] (map ent rs)) as (X & Y & E & S & FA & FB). rewrite S.
  apply map_split in E. destruct E as (m1 & m2 & E & <- & <-).
  destruct m2 as [|a m2]; [left; auto|]. cbn [map]. unfold ent at 1.
  destruct (beqb (r_start a) ns) eqn:EQ; [|left; auto]. apply beqb_eq in EQ.
  destruct (isnil ns) eqn:NN; [left; unfold ent at 1; cbn [collect_clear]; rewrite NN; reflexivity|].
  apply isnil_false in NN. right.
  pose proof (good_tile _ _ G) as T.
  assert (T2 : tile ns (a :: m2) []).
  { rewrite E in T. destruct m1 as [|x m1].
    - cbn [app] in T. pose proof (tile_head_eq _ _ _ _ T). congruence.
    - apply tile_app in T; try congruence. destruct T as (m & _ & _ & T). pose proof (tile_head_eq _ _ _ _ T). congruence. }
  assert (I2 : In o (a :: m2)).
  { rewrite E in I. apply in_app_or in I. destruct I as [I|I]; auto. exfalso.
    pose proof (good_sorted _ _ G) as SO. rewrite E in SO. apply sorted_app_all in SO. destruct SO as (_ & _ & SO).
    destruct (SO o a I (or_introl eq_refl)) as (_ & _ & L2). rewrite EQ in L2. eapply (below_irrefl ns). eapply below_trans; eauto. }
  assert (F : Forall (fun r => t_infos t (r_id r) = Some r) (a :: m2)).
  { destruct G as [_ [_ F]]. rewrite E in F. apply Forall_app in F. tauto. }
  destruct (collect_clear_ok t o (a :: m2) ns [] NN T2 F I2 L (Forall_nil _)) as (l1 & l2 & E1 & N1 & E2).
  exists m1, l1, l2, a. rewrite E, E1, <- app_assoc. cbn [app]. split; auto. split; auto.
  split; [unfold ent at 1; apply beqb_eq in EQ; rewrite EQ; etransitivity; [exact E2|reflexivity]|].
  split. { destruct l1 as [|y l1]; [congruence|]. cbn in E1. injection E1 as <- _. left; auto. }
  split; auto. split; auto. rewrite E1 in T2.
  replace (l1 ++ o :: l2) with ((l1 ++ [o]) ++ l2) in T2 by (rewrite <- app_assoc; auto).
  destruct l2 as [|c l2].
  - rewrite app_nil_r in T2. rewrite (tile_last_eq _ _ _ _ T2). auto.
  - apply tile_app in T2; try congruence; [|destruct l1; discriminate]. destruct T2 as (m & _ & T2 & _).
    rewrite (tile_last_eq _ _ _ _ T2). auto.
Qed.

(* ---- end_key_compare ---- *)
Lemma ekc_eq a b : end_key_compare a b = Eq -> a = b.
Proof.
  unfold end_key_compare. destruct (beqb a b) eqn:E; [apply beqb_eq in E; auto|].
  destruct (isnil a); [discriminate|]. destruct (isnil b); [discriminate|]. intros C. apply bcompare_eq in C. auto.
Qed.
Lemma ekc_refl a : end_key_compare a a = Eq.
Proof. unfold end_key_compare. rewrite beqb_refl. auto. Qed.
Lemma ekc_lt a b : end_key_compare a b = Lt <-> a <> [] /\ a <> b /\ before_end a b.
Proof.
  unfold end_key_compare, before_end. destruct (beqb a b) eqn:E.
  - apply beqb_eq in E. split; [discriminate|tauto].
  - apply beqb_neq in E. destruct (isnil a) eqn:A.
    + apply isnil_true in A. split; [discriminate|tauto].
    + apply isnil_false in A. destruct (isnil b) eqn:B.
      * apply isnil_true in B. tauto.
      * apply isnil_false in B. unfold below. split; [auto|]. intros (_ & _ & [X|X]); [congruence|auto].
Qed.
Lemma ekc_gt a b : b <> [] -> before_end b a -> end_key_compare a b = Gt.
Proof.
  intros N B. unfold end_key_compare. destruct (beqb a b) eqn:E.
  - apply beqb_eq in E. subst. destruct B as [B|B]; [congruence|]. exfalso. eapply below_irrefl; eauto.
  - destruct (isnil a) eqn:A; auto. apply isnil_false in A. apply before_end_nonnil in B; auto.
    apply isnil_false in N. rewrite N. unfold below in B. rewrite (bcompare_antisym b a), B. auto.
Qed.

(* an unknown region either overlaps its predecessor or starts where a known one starts *)
Lemma fresh_collides t rs s :
  good t rs ->
  match lower_bound s (t_keys t) with
  | ((_, pre) :: _, _) =>
      end_key_compare (match t_infos t pre with Some o => r_end o | None => [] end) s <> Gt ->
      exists a, In a rs /\ r_start a = s
  | ([], _) => exists a, In a rs /\ r_start a = s
  end.
Proof.
  intros G. unfold lower_bound. pose proof (good_keys _ _ G) as K. rewrite K.
  destruct (skip_while_spec (fun x => bltb x s) [] (map ent rs)) as (X & Y & E & S & FA & FB). rewrite S, app_nil_r.
  apply map_split in E. destruct E as (m1 & m2 & E & <- & <-).
  pose proof (good_tile _ _ G) as T.
  destruct m1 as [|x m1] using rev_ind.
  - cbn in E. subst m2. cbn. destruct (tile_start _ _ _ T) as (r & l & -> & R). exists r. split; [left; auto|].
    specialize (FB _ _ eq_refl). cbn in FB. rewrite R in *. apply bltb_false in FB. destruct FB as [FB|FB]; auto.
    destruct s; discriminate FB.
  - clear IHm1. rewrite map_app, rev_app_distr. cbn [map rev app]. unfold ent at 1.
    assert (Ix : In x rs) by (rewrite E, !in_app_iff; cbn; auto).
    rewrite (good_infos _ _ _ G Ix). intros NG.
    assert (LX : below (r_start x) s).
    { rewrite map_app in FA. apply Forall_app in FA. destruct FA as [_ FA]. apply Forall_inv in FA. cbn in FA. apply bltb_below in FA. auto. }
    assert (NS : s <> []) by (intros ->; destruct (r_start x); discriminate LX).
    destruct m2 as [|b m2].
    + exfalso. apply NG. apply ekc_gt; auto. left. rewrite app_nil_r in E. rewrite E in T. apply tile_last_eq in T. auto.
    + exists b. split; [rewrite E, !in_app_iff; cbn; auto|].
      assert (EB : r_end x = r_start b).
      { rewrite E in T. apply tile_app in T; [|destruct m1; discriminate|congruence].
        destruct T as (m & _ & T1 & T2). apply tile_last_eq in T1. apply tile_head_eq in T2. congruence. }
      specialize (FB _ _ eq_refl). cbn in FB. apply bltb_false in FB. destruct FB as [FB|FB]; auto.
      exfalso. apply NG. apply ekc_gt; auto. right. rewrite EB. auto.
Qed.

(* ---- the loop ---- *)
Section Loop.
Variables (t0 : table) (rs0 : list region) (strict : Prop).
Hypothesis G0 : good t0 rs0.
Hypothesis NO0 : strict -> no_others t0 rs0.

Record pending (t : table) (rs done todo : list region) (last : list region) (cs : @kv Z) (ek : key) : Prop := {
  p_ex : exists A M B s, rs = A ++ M ++ B /\ tile s M ek /\ tile s last (last_end last) /\ group_ok t M last cs;
  p_end : last_end last <> [] /\ last_end last <> ek /\ before_end (last_end last) ek;
  p_done : forall r, In r last -> In r done;
  p_todo : forall r, In r todo -> ~ In (r_id r) (map r_id last) }.

Record inv (done todo : list region) (u : upd) (rs : list region) : Prop := {
  i_good : good (u_tab u) rs;
  i_todo : forall r o, In r todo -> t_infos (u_tab u) (r_id r) = Some o -> r_id o = r_id r /\ In o rs /\ (r_ver o = r_ver r -> o = r);
  i_pend : u_last u = [] \/ pending (u_tab u) rs done todo (u_last u) (u_clear u) (u_end u);
  i_strict : strict ->
    no_others (u_tab u) rs /\
    (forall a, In a rs -> In a rs0 \/ In a done) /\
    (forall o, In o rs0 -> In o rs \/ exists d, In d done /\ owns d (r_start o)) }.

Lemma inv_drop done r todo u rs t' cs :
  inv done (r :: todo) u rs -> t' = u_tab u ->
  inv (done ++ [r]) todo {| u_tab := t'; u_last := []; u_clear := cs; u_end := u_end u |} rs.
Proof.
  intros [H1 H2 H3 H4] ->. constructor; cbn; auto.
  - intros r' o I. apply H2. right. auto.
  - intros ST. destruct (H4 ST) as (N & A & B). split; auto. split.
    + intros a I. rewrite in_app_iff. destruct (A a I); auto.
    + intros o I. destruct (B o I) as [|(d & D & O)]; auto. right. exists d. rewrite in_app_iff. auto.
Qed.
(* the same table with pointwise equal maps *)
Lemma group_ext t t' M L cs : (forall i, t_infos t' i = t_infos t i) -> group_ok t M L cs -> group_ok t' M L cs.
Proof.
  intros E (o & r0 & news & H). exists o, r0, news. intuition auto;
  (eapply Forall_impl; [|eassumption]; intros a Ha; cbn; rewrite E; auto).
Qed.
Lemma good_ext t t' rs : t_keys t' = t_keys t -> (forall i, t_infos t' i = t_infos t i) -> good t rs -> good t' rs.
Proof.
  intros EK EI [C [K F]]. split; auto. split; [congruence|]. eapply Forall_impl; [|exact F]. intros a Ha. cbn. rewrite EI. auto.
Qed.
Lemma inv_keep done r todo u rs t' :
  inv done (r :: todo) u rs -> t_keys t' = t_keys (u_tab u) -> (forall i, t_infos t' i = t_infos (u_tab u) i) ->
  inv (done ++ [r]) todo {| u_tab := t'; u_last := u_last u; u_clear := u_clear u; u_end := u_end u |} rs.
Proof.
  intros [H1 H2 H3 H4] EK EI. constructor; cbn.
  - eapply good_ext; eauto.
  - intros r' o I. rewrite EI. apply H2. right. auto.
  - destruct H3 as [H3|[(A & M & B & s & P1 & P2 & P3 & P4) P5 P6 P7]]; auto. right. constructor; auto.
    + exists A, M, B, s. repeat split; auto. eapply group_ext; eauto.
    + intros x I. rewrite in_app_iff. auto.
    + intros x I. apply P7. right. auto.
  - intros ST. destruct (H4 ST) as (N & A & B). split; [|split].
    + intros i x. rewrite EI. apply N.
    + intros a I. rewrite in_app_iff. destruct (A a I); auto.
    + intros o I. destruct (B o I) as [|(d & D & O)]; auto. right. exists d. rewrite in_app_iff. auto.
Qed.
Lemma inv_commit done r todo u rs A M B s L cs ek :
  inv done (r :: todo) u rs -> rs = A ++ M ++ B -> tile s M ek -> tile s L ek -> group_ok (u_tab u) M L cs ->
  (forall x, In x L -> In x done \/ x = r) -> (forall x, In x todo -> ~ In (r_id x) (map r_id L)) ->
  forall cs' ek', inv (done ++ [r]) todo {| u_tab := fold_left update_region L (clear_region (u_tab u) cs); u_last := []; u_clear := cs'; u_end := ek' |} (A ++ L ++ B).
Proof.
  intros [H1 H2 H3 H4] E TM TL GO DN TD cs' ek'. subst rs. constructor; cbn.
  - eapply commit_good; eauto.
  - intros r' o I EI. destruct (commit_infos _ _ _ _ _ _ _ _ H1 GO EI) as [[I1 I2]|(I1 & I2 & I3)].
    + exfalso. apply (TD r' I). rewrite <- I2. apply in_map. auto.
    + destruct (H2 r' o (or_intror I) I1) as (E1 & E2 & E3). split; auto. split; auto.
      rewrite !in_app_iff in *. destruct E2 as [|[E2|]]; auto. exfalso. apply I3. rewrite <- E1. apply in_map. auto.
  - auto.
  - intros ST. destruct (H4 ST) as (N & AA & BB). split; [|split].
    + intros i x EI. destruct (commit_infos _ _ _ _ _ _ _ _ H1 GO EI) as [[I1 I2]|(I1 & I2 & I3)].
      * split; auto. rewrite !in_app_iff. auto.
      * destruct (N i x I1) as [E1 E2]. split; auto. rewrite !in_app_iff in *. destruct E2 as [|[E2|]]; auto.
        exfalso. apply I3. rewrite <- E1. apply in_map. auto.
    + intros a I. rewrite !in_app_iff in *. cbn. destruct I as [I|[I|I]].
      * destruct (AA a); [rewrite !in_app_iff; auto| |]; auto.
      * destruct (DN a I); auto.
      * destruct (AA a); [rewrite !in_app_iff; auto| |]; auto.
    + intros o I. destruct (BB o I) as [J|(d & D & O)]; [|right; exists d; rewrite in_app_iff; auto].
      rewrite !in_app_iff in *. destruct J as [J|[J|J]]; auto. right.
      pose proof (tile_forall_start _ _ _ TM) as F. rewrite Forall_forall in F.
      destruct (tile_owner _ _ _ (r_start o) TL (proj1 (F _ J)) (proj1 (tile_in_end _ _ _ _ TM J))) as (d & D & O).
      exists d. rewrite in_app_iff. cbn. destruct (DN d D); auto.
Qed.

Lemma last_end_app l r : last_end (l ++ [r]) = r_end r.
Proof. unfold last_end. rewrite rev_app_distr. reflexivity. Qed.
Lemma group_single t M o r cs : In o M -> r_id o = r_id r -> r_ver o <= r_ver r -> sane r ->
  (cs = map ent M \/ (cs = [] /\ M = [o] /\ r_start o = r_start r)) -> group_ok t M [r] cs.
Proof. intros. exists o, r, []. repeat split; auto; repeat constructor; auto; try apply H2. Qed.

Lemma inv_step done r todo u rs :
  inv done (r :: todo) u rs -> sane r ->
  (forall x, In x todo -> r_id x <> r_id r) ->
  (strict -> forall d, In d done -> r_end d <> [] /\ upto (r_end d) (r_start r) /\ r_start d <> r_start r) ->
  (strict -> forall o, In o rs0 -> r_start o = r_start r ->
     exists o', t_infos t0 (r_id r) = Some o' /\ upto (r_start r) (r_start o')) ->
  exists rs', inv (done ++ [r]) todo (update_step u r) rs'.
Proof.
  intros IV SA DI DJ H2.
  assert (TD : forall x, In x todo -> ~ In (r_id x) (map r_id [r])) by (intros x I [C|[]]; apply (DI x I); auto).
  unfold update_step. cbv zeta. pose proof (i_good _ _ _ _ IV) as G.
  destruct (t_infos (u_tab u) (r_id r)) as [o|] eqn:EI.
  - destruct (i_todo _ _ _ _ IV r o (or_introl eq_refl) EI) as (Eo & Io & Veq).
    destruct (r_ver o <? r_ver r) eqn:VL.
    + apply Z.ltb_lt in VL.
      assert (DROP : forall cs, exists rs', inv (done ++ [r]) todo {| u_tab := u_tab u; u_last := []; u_clear := cs; u_end := u_end u |} rs')
        by (intros cs; exists rs; eapply inv_drop; eauto).
      destruct (bltb (r_start r) (r_start o)) eqn:LT.
      * apply bltb_below in LT.
        destruct (get_clear_regions_ok _ _ _ _ G Io LT) as [CE|(A & M1 & B & a & ER & NM & CE & _ & _ & TM & NN)].
        { rewrite CE. cbn [length]. destruct (end_key_compare (r_end r) (r_end o)); cbn; apply DROP. }
        assert (GO : group_ok (u_tab u) (M1 ++ [o]) [r] (map ent (M1 ++ [o]))).
        { apply (group_single _ _ o); auto; [apply in_or_app; right; left; auto|lia]. }
        assert (LEN : (length (get_clear_regions (u_tab u) (r_start r) (r_start o)) <? 2)%nat = false).
        { apply Nat.ltb_ge. rewrite CE. rewrite map_length, app_length. cbn. destruct M1; [congruence|cbn; lia]. }
        destruct (end_key_compare (r_end r) (r_end o)) eqn:EC.
        -- apply ekc_eq in EC. rewrite LEN, CE.
           change (update_region (clear_region (u_tab u) (map ent (M1 ++ [o]))) r)
             with (fold_left update_region [r] (clear_region (u_tab u) (map ent (M1 ++ [o])))).
           eexists. eapply (inv_commit done r todo u rs A (M1 ++ [o]) B (r_start r) [r]); eauto.
           ++ cbn. destruct SA as (_ & _ & SA). auto.
           ++ intros x [<-|[]]. auto.
        -- rewrite LEN, CE. apply ekc_lt in EC. exists rs.
           pose proof (inv_drop _ _ _ _ _ (u_tab u) [] IV eq_refl) as [J1 J2 J3 J4]. constructor; cbn in *; auto. right.
           constructor; cbn.
           ++ exists A, (M1 ++ [o]), B, (r_start r). repeat split; auto. destruct SA as (_ & _ & SA). auto.
           ++ unfold last_end. cbn. auto.
           ++ intros x [<-|[]]. rewrite in_app_iff. cbn. auto.
           ++ auto.
        -- apply DROP.
      * destruct (beqb (r_start r) (r_start o)) eqn:EQ; [|apply DROP]. apply beqb_eq in EQ.
        pose proof Io as Io'. apply in_split in Io'. destruct Io' as (A & B & ER).
        assert (TM : tile (r_start r) [o] (r_end o)).
        { pose proof (tile_forall_start _ _ _ (good_tile _ _ G)) as F. rewrite Forall_forall in F. destruct (F _ Io) as [_ F1].
          cbn. rewrite EQ. auto. }
        assert (GO : group_ok (u_tab u) [o] [r] []).
        { apply (group_single _ _ o); auto; [left; auto|lia]. }
        destruct (end_key_compare (r_end r) (r_end o)) eqn:EC.
        -- apply ekc_eq in EC. unfold drop_pending. cbn [u_end].
           change (update_region (u_tab u) r) with (fold_left update_region [r] (clear_region (u_tab u) [])).
           eexists. eapply (inv_commit done r todo u rs A [o] B (r_start r) [r]); eauto.
           ++ cbn. destruct SA as (_ & _ & SA). auto.
           ++ intros x [<-|[]]. auto.
        -- apply ekc_lt in EC. exists rs.
           pose proof (inv_drop _ _ _ _ _ (u_tab u) [] IV eq_refl) as [J1 J2 J3 J4]. constructor; cbn in *; auto. right.
           constructor; cbn.
           ++ exists A, [o], B, (r_start r). split; auto. split; auto. split; auto.
              cbn. destruct SA as (_ & _ & SA). auto.
           ++ unfold last_end. cbn. auto.
           ++ intros x [<-|[]]. rewrite in_app_iff. cbn. auto.
           ++ auto.
        -- apply DROP.
    + apply Z.ltb_ge in VL. exists rs. destruct (Z.eq_dec (r_ver o) (r_ver r)) as [VE|VN].
      * specialize (Veq VE). subst o. apply inv_keep; auto.
        -- rewrite update_region_eq; auto; [|unfold newer; rewrite EI; lia]. cbn.
           unfold map_insert. destruct (kget (r_start r) (t_keys (u_tab u))) eqn:KG; auto. exfalso.
           rewrite (good_keys _ _ G) in KG.
           assert (X : kget (r_start r) (map ent rs) = Some (r_id r)).
           { apply kget_in; [exact (tile_ksorted _ _ _ (good_tile _ _ G))|]. apply (in_map ent) in Io. exact Io. }
           congruence.
        -- intros i. rewrite update_region_eq; auto; [|unfold newer; rewrite EI; lia]. cbn. unfold set_info.
           destruct (Z.eqb_spec i (r_id r)); auto. subst. auto.
      * assert (UE : update_region (u_tab u) r = u_tab u).
        { unfold update_region. destruct SA as (D & _). rewrite D, EI. replace (r_ver r <? r_ver o) with true; auto.
          symmetry. apply Z.ltb_lt. lia. }
        rewrite UE. apply inv_keep; auto.
  - destruct (u_last u) as [|l0 ls] eqn:EL.
    + (* no group is pending *)
      assert (FRESH : (exists a, In a rs /\ r_start a = r_start r) ->
        exists rs', inv (done ++ [r]) todo {| u_tab := update_region (u_tab u) r; u_last := []; u_clear := u_clear u; u_end := u_end u |} rs').
      { intros (a & Ia & Ea). exists rs.
        destruct IV as [J1 J2 J3 J4].
        assert (NW : newer (u_tab u) r) by (unfold newer; rewrite EI; auto).
        assert (KK : t_keys (update_region (u_tab u) r) = t_keys (u_tab u)).
        { rewrite update_region_eq by auto. cbn. unfold map_insert.
          assert (X : kget (r_start r) (t_keys (u_tab u)) = Some (r_id a)).
          { rewrite (good_keys _ _ G). apply kget_in; [exact (tile_ksorted _ _ _ (good_tile _ _ G))|]. apply (in_map ent) in Ia.
            unfold ent at 1 in Ia. rewrite Ea in Ia. exact Ia. }
          rewrite X. auto. }
        assert (II : forall i, i <> r_id r -> t_infos (update_region (u_tab u) r) i = t_infos (u_tab u) i).
        { intros i N. rewrite update_region_eq by auto. cbn. unfold set_info. destruct (Z.eqb_spec i (r_id r)); auto. congruence. }
        constructor; cbn.
        - destruct J1 as [C [K F]]. split; auto. split; [congruence|]. rewrite Forall_forall in *. intros x Ix.
          rewrite II; auto. intros E. apply F in Ix. congruence.
        - intros x o Ix. rewrite II by auto. apply J2. right. auto.
        - auto.
        - intros ST. exfalso. destruct (J4 ST) as (N & AA & BB).
          destruct (AA a Ia) as [IA|IA]; [|destruct (DJ ST a IA) as (_ & _ & X); congruence].
          destruct (H2 ST a IA Ea) as (o' & EO & UO). destruct (NO0 ST _ _ EO) as [EO1 EO2].
          destruct (BB o' EO2) as [IB|(d & Id & Od)].
          + rewrite <- EO1 in EI. rewrite (good_infos _ _ _ G IB) in EI. discriminate.
          + destruct (DJ ST d Id) as (X1 & X2 & _). destruct Od as [_ Od]. apply before_end_nonnil in Od; auto.
            eapply below_upto_absurd; [exact Od|]. eapply upto_trans; eauto. }
      pose proof (fresh_collides _ _ (r_start r) G) as FC.
      destruct (lower_bound (r_start r) (t_keys (u_tab u))) as [[|[pk pre] bef] rest].
      * rewrite <- EL. rewrite EL. apply FRESH. auto.
      * destruct (end_key_compare _ _) eqn:EC.
        -- apply FRESH. apply FC. discriminate.
        -- apply FRESH. apply FC. discriminate.
        -- exists rs. pose proof (inv_drop _ _ _ _ _ (u_tab u) (u_clear u) IV eq_refl) as J. destruct u as [ut ul uc ue]; cbn in EL, J |- *; rewrite EL; exact J.
    + (* a group is pending *)
      destruct (i_pend _ _ _ _ IV) as [X|[(A & M & B & s & ER & TM & TL & GO) PE PD PT]]; [congruence|].
      rewrite <- EL in *.
      assert (DROP : exists rs', inv (done ++ [r]) todo (drop_pending u (u_tab u)) rs') by (exists rs; eapply inv_drop; eauto).
      destruct (beqb (last_end (u_last u)) (r_start r)) eqn:EQ; [|cbn [negb]; apply DROP]. cbn [negb].
      apply beqb_eq in EQ. destruct PE as (PE1 & PE2 & PE3). destruct SA as (S1 & S2 & S3).
      assert (TL' : tile s (u_last u ++ [r]) (r_end r)).
      { apply tile_app; [rewrite EL; congruence|congruence|]. exists (last_end (u_last u)). split; auto. split; auto.
        cbn. rewrite EQ. auto. }
      assert (GO' : group_ok (u_tab u) M (u_last u ++ [r]) (u_clear u)).
      { destruct GO as (o & r0 & news & G1 & G2 & G3 & G4 & G5 & G6 & G7 & G8). exists o, r0, (news ++ [r]).
        rewrite G1. split; auto. split; auto. split; auto. split; auto. split; [|split; [|split; auto]].
        - rewrite <- G1. apply Forall_app. split; auto. constructor; [split; auto|constructor].
        - rewrite <- G1, map_app. cbn. specialize (PT r (or_introl eq_refl)).
          clear - PT G6. induction (map r_id (u_last u)) as [|i l IH]; cbn in *; [repeat constructor; auto|].
          inversion G6; subst. constructor; [|apply IH; auto]. rewrite in_app_iff. cbn. intros [C|[C|[]]]; [auto|apply PT; left; congruence].
        - apply Forall_app. split; auto. }
      assert (TD' : forall x, In x todo -> ~ In (r_id x) (map r_id (u_last u ++ [r]))).
      { intros x I. rewrite map_app, in_app_iff. intros [C|C]; [apply (PT x); auto; right; auto|apply (TD x I); auto]. }
      destruct (beqb (r_end r) (u_end u)) eqn:EE.
      * apply beqb_eq in EE. unfold drop_pending. rewrite EE in TL'.
        eexists. eapply inv_commit; eauto.
        intros x I. rewrite in_app_iff in I. destruct I as [I|[<-|[]]]; auto.
      * apply beqb_neq in EE. destruct (end_key_compare (r_end r) (u_end u)) eqn:EC.
        -- apply ekc_eq in EC. congruence.
        -- apply ekc_lt in EC. exists rs.
           pose proof (inv_drop _ _ _ _ _ (u_tab u) [] IV eq_refl) as [J1 J2 J3 J4]. constructor; cbn in *; auto. right.
           constructor; rewrite ?last_end_app; auto.
           ++ exists A, M, B, s. repeat split; auto.
           ++ intros x I. rewrite in_app_iff in I. rewrite in_app_iff. cbn. destruct I as [I|[<-|[]]]; auto.
        -- apply DROP.
Qed.
End Loop.
