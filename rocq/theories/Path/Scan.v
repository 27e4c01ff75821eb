(* One range of an index as the iterator reads it. *)
From Coq Require Import List ZArith Lia Bool Sorted.
From Verif Require Import Common.Bytes Common.KV Key.Model Like.Model Path.Model Path.Spec.
Import ListNotations.
Local Open Scope Z_scope.

(* ---- byte strings ---- *)
Lemma starts_iff p k : starts p k = true <-> prefix_of p k.
Proof.
  revert k. induction p as [|a p IH]; intros k; cbn; [split; auto; intros _; exists k; auto|].
  destruct k as [|b k]; [split; [discriminate|intros [x Q]; discriminate]|].
  rewrite andb_true_iff, IH, Z.eqb_eq. split.
  - intros [-> [x ->]]. exists x. auto.
  - intros [x Q]. cbn in Q. injection Q as -> ->. split; auto. exists x. auto.
Qed.
Lemma bltb_lt a b : bltb a b = true <-> bcompare a b = Lt.
Proof. unfold bltb. destruct (bcompare a b); split; congruence. Qed.
Lemma bleb_le a b : bleb a b = true <-> bcompare a b <> Gt.
Proof. unfold bleb. destruct (bcompare a b); split; congruence. Qed.
Lemma bltb_not a b : bltb a b = false <-> bcompare b a <> Gt.
Proof. unfold bltb. rewrite (bcompare_antisym a b). destruct (bcompare a b); cbn; split; congruence. Qed.
Lemma bleb_not a b : bleb a b = false <-> bcompare b a = Lt.
Proof. unfold bleb. rewrite (bcompare_antisym a b). destruct (bcompare a b); cbn; split; congruence. Qed.
Lemma le_lt_trans a b c : bcompare a b <> Gt -> bcompare b c = Lt -> bcompare a c = Lt.
Proof.
  intros H L. destruct (bcompare a b) eqn:Q; [|eapply bcompare_lt_trans; eauto|congruence].
  apply bcompare_eq in Q. subst. auto.
Qed.
Lemma lt_le_trans a b c : bcompare a b = Lt -> bcompare b c <> Gt -> bcompare a c = Lt.
Proof.
  intros L H. destruct (bcompare b c) eqn:Q; [|eapply bcompare_lt_trans; eauto|congruence].
  apply bcompare_eq in Q. subst. auto.
Qed.
Lemma le_trans a b c : bcompare a b <> Gt -> bcompare b c <> Gt -> bcompare a c <> Gt.
Proof.
  intros H L. destruct (bcompare b c) eqn:Q; [|rewrite (le_lt_trans a b c); auto; discriminate|congruence].
  apply bcompare_eq in Q. subst. auto.
Qed.
Lemma gt_lt a b : bcompare a b = Gt <-> bcompare b a = Lt.
Proof. rewrite (bcompare_antisym a b). destruct (bcompare a b); cbn; split; congruence. Qed.
Lemma prefix_le p x : bcompare p (p ++ x) <> Gt.
Proof.
  rewrite <- (app_nil_r p) at 1. rewrite bcompare_app_same. destruct x; cbn; congruence.
Qed.
(* a string above p that does not start with p is above everything that starts with p *)
Lemma above_prefix p k x : bcompare p k = Lt -> ~ prefix_of p k -> bcompare (p ++ x) k = Lt.
Proof.
  revert k. induction p as [|a p IH]; intros k L N; [destruct N; exists k; auto|].
  destruct k as [|b k]; cbn in *; [discriminate|].
  destruct (Z.compare_spec a b) as [->|Q|Q]; auto.
  apply IH; auto. intros [y ->]. apply N. exists y. auto.
Qed.
Lemma below_prefix p k x : bcompare k p = Lt -> bcompare k (p ++ x) = Lt.
Proof. intros L. eapply lt_le_trans; eauto using prefix_le. Qed.
Lemma between_prefix p k x : bcompare p k <> Gt -> bcompare k (p ++ x) = Lt -> prefix_of p k.
Proof.
  intros H L. destruct (starts p k) eqn:Q; [apply starts_iff; auto|]. exfalso.
  assert (N : ~ prefix_of p k) by (rewrite <- starts_iff; congruence).
  assert (L' : bcompare p k = Lt).
  { destruct (bcompare p k) eqn:Q'; auto; [|congruence]. apply bcompare_eq in Q'. subst.
    destruct N. exists []. rewrite app_nil_r. auto. }
  pose proof (above_prefix p k x L' N) as A. rewrite (bcompare_antisym k (p ++ x)) in A. rewrite L in A. discriminate.
Qed.
(* nothing but a run of 255 exceeds 255s *)
Lemma ff_top n x : bytes_ok x -> bcompare x (repeat 255 n) <> Lt -> exists y, x = repeat 255 n ++ y.
Proof.
  revert x. induction n as [|n IH]; intros x B H; [exists x; auto|]. cbn [repeat] in *.
  destruct x as [|a x]; [cbn in H; congruence|]. inversion B as [|? ? Ba Bx]; subst. unfold is_byte in Ba. cbn in H.
  destruct (Z.compare_spec a 255) as [->|Q|Q]; try lia; [|congruence].
  destruct (IH x Bx H) as [y ->]. exists y. auto.
Qed.
Lemma ff_upper u k : bytes_ok k -> no_ff_run k -> bcompare k u <> Gt \/ prefix_of u k -> bcompare k (u ++ ff 24) = Lt.
Proof.
  intros B N [H|[x ->]].
  - destruct (bcompare k u) eqn:Q; [|apply below_prefix; auto|congruence].
    apply bcompare_eq in Q. subst. rewrite <- (app_nil_r u) at 1. rewrite bcompare_app_same. reflexivity.
  - rewrite bcompare_app_same. destruct (bcompare x (ff 24)) eqn:Q; auto; exfalso; apply N.
    + apply bcompare_eq in Q. subst. exists u, []. rewrite app_nil_r. reflexivity.
    + destruct (ff_top 24 x) as [y ->]; [unfold bytes_ok in *; rewrite Forall_app in B; tauto|unfold ff in Q; congruence|].
      exists u, y. reflexivity.
Qed.

(* ---- taking a stretch of a sorted list ---- *)
Section Stretch.
Context {A : Type}.
Variable lt : A -> A -> Prop.
(* [p] holds on a front part *)
Definition down (p : A -> bool) (l : list A) : Prop := forall x y, In x l -> In y l -> lt x y -> p y = true -> p x = true.
Lemma take_while_filter p l : StronglySorted lt l -> down p l -> take_while p l = filter p l.
Proof.
  induction 1 as [|x l HS IH HF]; intros D; cbn; auto.
  destruct (p x) eqn:Q; [f_equal; apply IH; intros a b Ha Hb; apply D; right; auto|].
  symmetry. rewrite Forall_forall in HF. 
  assert (Z : forall y, In y l -> p y = false).
  { intros y Hy. destruct (p y) eqn:P; auto. rewrite (D x y) in Q; [discriminate|left; auto|right; auto|auto|auto]. }
  clear - Z. induction l as [|y l IH]; cbn; auto. rewrite (Z y) by (left; auto). apply IH. intros z Hz. apply Z. right; auto.
Qed.
Lemma drop_while_filter p l : StronglySorted lt l -> down p l -> drop_while p l = filter (fun x => negb (p x)) l.
Proof.
  induction 1 as [|x l HS IH HF]; intros D; cbn; auto.
  destruct (p x) eqn:Q; cbn; [apply IH; intros a b Ha Hb; apply D; right; auto|].
  rewrite Forall_forall in HF. f_equal.
  assert (Z : forall y, In y l -> p y = false).
  { intros y Hy. destruct (p y) eqn:P; auto. rewrite (D x y) in Q; [discriminate|left; auto|right; auto|auto|auto]. }
  clear - Z. induction l as [|y l IH]; cbn; auto. rewrite (Z y) by (left; auto). cbn. f_equal. apply IH. intros z Hz. apply Z. right; auto.
Qed.
Lemma sorted_filter p l : StronglySorted lt l -> StronglySorted lt (filter p l).
Proof.
  induction 1 as [|x l HS IH HF]; cbn; [constructor|]. destruct (p x); auto. constructor; auto.
  rewrite Forall_forall in *. intros y Hy. apply filter_In in Hy. apply HF. tauto.
Qed.
Lemma filter_filter p q (l : list A) : filter p (filter q l) = filter (fun x => q x && p x) l.
Proof. induction l as [|x l IH]; cbn; auto. destruct (q x); cbn; rewrite ?IH; auto. Qed.
Lemma filter_ext_on p q (l : list A) : (forall x, In x l -> p x = q x) -> filter p l = filter q l.
Proof.
  induction l as [|x l IH]; cbn; auto. intros H. rewrite (H x) by auto. rewrite IH; auto.
Qed.
Lemma filter_rev p (l : list A) : filter p (rev l) = rev (filter p l).
Proof.
  induction l as [|x l IH]; cbn; auto. rewrite filter_app, IH. cbn. destruct (p x); cbn; auto. rewrite app_nil_r. auto.
Qed.
End Stretch.
Lemma sorted_rev {A} (lt : A -> A -> Prop) l : StronglySorted lt l -> StronglySorted (fun x y => lt y x) (rev l).
Proof.
  induction 1 as [|x l HS IH HF]; cbn; [constructor|].
  assert (G : forall m, StronglySorted (fun x y => lt y x) m -> Forall (lt x) m -> StronglySorted (fun x y => lt y x) (m ++ [x])).
  { induction m as [|y m IHm]; intros SS F; cbn; [repeat constructor|].
    inversion SS; inversion F; subst. constructor; auto. apply Forall_app. split; auto. }
  apply G; auto. rewrite Forall_forall in *. intros y Hy. apply HF. apply in_rev. auto.
Qed.

(* ---- the bounds ---- *)
Lemma isnil {A} (l : list A) : is_nil l = true <-> l = [].
Proof. destruct l; cbn; split; congruence. Qed.

Section Bounds.
Variables (lopen ropen : bool) (l r : list Z) (region : option (list Z * list Z)).
Definition within (k : list Z) : Prop := above lopen l k /\ below ropen r k /\ in_region region k.

(* what the iterator's tests mean once it is open *)
Lemma fits_left_within it : iter_open lopen ropen (l, r) region = Some it -> forall k,
  fits_left it k = true <-> above lopen l k /\ (match region with Some (s, _) => bcompare s k <> Gt | None => True end).
Proof.
  intros Q k. unfold iter_open in Q. unfold above.
  assert (El : is_nil l = true \/ is_nil l = false) by (destruct (is_nil l); auto).
  destruct region as [[s e]|].
  - destruct (bleb s l) eqn:Qs.
    + destruct (bltb _ l && _); [discriminate|]. injection Q as <-. unfold fits_left. cbn [it_lopen it_lower it_start].
      apply bleb_le in Qs. destruct l as [|b l']; [cbn [is_nil negb andb]|].
      * rewrite andb_false_r. rewrite bleb_le.
        assert (N : bcompare [] k <> Gt) by (destruct k; cbn; congruence). split; auto. intros _. split; auto.
        eapply le_trans; eauto.
      * cbn [is_nil negb]. rewrite andb_true_r. destruct lopen.
        -- rewrite andb_true_iff, bltb_lt, negb_true_iff. rewrite <- starts_iff. split.
           ++ intros [X Y]. split; [right; split; [auto|congruence]|]. intros G.
              rewrite (le_lt_trans _ _ _ Qs X) in G. discriminate.
           ++ intros [[D|[X Y]] _]; [discriminate|]. split; auto. destruct (starts _ k); congruence.
        -- rewrite bleb_le. split.
           ++ intros X. split; [auto|]. eapply le_trans; eauto.
           ++ intros [[D|X] _]; [discriminate|auto].
    + apply bleb_not in Qs.
      destruct (bltb _ s && _); [discriminate|]. injection Q as <-. unfold fits_left. cbn [it_lopen it_lower it_start].
      destruct l as [|b l']; [cbn [is_nil negb andb]|].
      * rewrite bleb_le. tauto.
      * cbn [is_nil negb andb]. rewrite andb_true_r. remember (b :: l') as L eqn:EL.
        assert (NL : L <> []) by (subst; discriminate).
        destruct (starts L s) eqn:Qp.
        -- destruct lopen.
           ++ rewrite andb_true_iff, bltb_lt, negb_true_iff. split.
              ** intros [X Y]. split; [right; split|rewrite X; discriminate].
                 --- eapply bcompare_lt_trans; eauto.
                 --- rewrite <- starts_iff. congruence.
              ** intros [[D|[X Y]] Z]; [congruence|]. rewrite <- starts_iff in Y. split.
                 --- destruct (bcompare s k) eqn:W; auto; [|congruence]. apply bcompare_eq in W. subst k. congruence.
                 --- destruct (starts L k); congruence.
           ++ rewrite bleb_le. split.
              ** intros X. split; auto. right. rewrite (lt_le_trans _ _ _ Qs X). discriminate.
              ** tauto.
        -- rewrite bleb_le. split.
           ++ intros X. split; auto. right.
              pose proof (lt_le_trans _ _ _ Qs X) as LT. destruct lopen; [|rewrite LT; discriminate]. split; auto.
              intros P. apply starts_iff in P.
              assert (NP : ~ prefix_of L s) by (rewrite <- starts_iff; congruence).
              apply starts_iff in P. destruct P as [x ->]. pose proof (above_prefix L s x Qs NP) as AP.
              apply gt_lt in AP. congruence.
           ++ tauto.
  - injection Q as <-. unfold fits_left. cbn [it_lopen it_lower it_start].
    destruct l as [|b l']; [cbn [is_nil negb andb]|].
    + rewrite andb_false_r. rewrite bleb_le. split; auto. intros _. destruct k; cbn; congruence.
    + cbn [is_nil negb]. rewrite andb_true_r. destruct lopen.
      * rewrite andb_true_iff, bltb_lt, negb_true_iff, <- starts_iff. split.
        -- intros [X Y]. split; auto. right. split; auto. congruence.
        -- intros [[D|[X Y]] _]; [discriminate|]. split; auto. destruct (starts _ k); congruence.
      * rewrite bleb_le. split; [auto|]. intros [[D|X] _]; [discriminate|auto].
Qed.
Lemma fits_right_within it : iter_open lopen ropen (l, r) region = Some it -> forall k,
  fits_right it k = true <-> below ropen r k /\ (match region with Some (_, e) => e = [] \/ bcompare k e = Lt | None => True end).
Proof.
  intros Q k. unfold iter_open in Q. unfold below.
  destruct region as [[s e]|].
  - set (up := if is_nil e || bltb r e then if negb (is_nil r) then if starts r e && negb (ropen && negb (is_nil r)) then e else r else e else e) in *.
    assert (G : exists a lo, it = It l r a up lo (ropen && negb (is_nil r)) (beqb up e)).
    { destruct (if bleb s l then _ else _) as [lower lo]. destruct (bltb up lower && _); [discriminate|].
      injection Q as <-. exists lower, lo. auto. }
    clear Q. destruct G as (a & lo & ->). unfold fits_right. cbn [it_ropen it_upper it_isend it_end].
    assert (EE : beqb e e = true) by (apply beqb_eq; auto).
    destruct (is_nil r) eqn:Nr; [apply isnil in Nr|assert (Nr' : r <> []) by (rewrite <- isnil; congruence)].
    + (* no right key *)
      assert (up = e) as -> by (unfold up; destruct (is_nil e || bltb r e); auto). rewrite andb_false_r, EE. cbn [negb].
      destruct (is_nil e) eqn:Ne; [apply isnil in Ne; tauto|]. assert (e <> []) by (rewrite <- isnil; congruence).
      rewrite bltb_lt. tauto.
    + cbn [negb] in *. rewrite andb_true_r in *.
      destruct (is_nil e) eqn:Ne; [apply isnil in Ne|assert (Ne' : e <> []) by (rewrite <- isnil; congruence)].
      * cbn [orb] in up. assert (starts r e = false) as SR by (subst e; destruct r; [congruence|auto]).
        assert (up = r) as -> by (unfold up; rewrite SR; auto).
        assert (beqb r e = false) as -> by (destruct (beqb r e) eqn:X; auto; apply beqb_eq in X; congruence).
        destruct ropen; [rewrite bltb_lt; tauto|]. rewrite orb_true_iff, bleb_le, starts_iff. tauto.
      * cbn [orb] in up. destruct (bltb r e) eqn:Qr.
        -- apply bltb_lt in Qr. destruct ropen; cbn [negb andb] in up.
           ++ assert (up = r) as -> by (unfold up; rewrite andb_false_r; auto). rewrite bltb_lt. split; [|tauto]. intros X. split; auto. right. eapply bcompare_lt_trans; eauto.
           ++ destruct (starts r e) eqn:SR.
              ** assert (up = e) as -> by auto. rewrite EE, Ne, bltb_lt. split; [|tauto]. intros X. split; auto. right.
                 apply starts_iff in SR. destruct SR as [x ->].
                 destruct (bcompare k r) eqn:W; [left; congruence|left; congruence|].
                 right. apply (between_prefix r k x); auto. apply gt_lt in W. congruence.
              ** assert (up = r) as -> by auto. assert (beqb r e = false) as -> by (destruct (beqb r e) eqn:X; auto; apply beqb_eq in X; subst; rewrite bcompare_refl in Qr; discriminate).
                 rewrite orb_true_iff, bleb_le, starts_iff. split; [|tauto]. intros X. split; auto. right.
                 destruct X as [X|[x ->]]; [eapply le_lt_trans; eauto|].
                 apply above_prefix; auto. rewrite <- starts_iff. congruence.
        -- apply bltb_not in Qr. assert (up = e) as -> by auto. rewrite EE, Ne.
           assert (R : (if ropen then bltb k e else bltb k e) = true <-> bcompare k e = Lt) by (destruct ropen; apply bltb_lt).
           rewrite R. split; [|tauto]. intros X. split; auto. right.
           pose proof (lt_le_trans _ _ _ X Qr) as Y. rewrite Y. destruct ropen; auto. left. discriminate.
  - injection Q as <-. unfold fits_right. cbn [it_ropen it_upper it_isend it_end].
    destruct (is_nil r) eqn:Nr; [apply isnil in Nr|assert (Nr' : r <> []) by (rewrite <- isnil; congruence)].
    + rewrite andb_false_r. subst r. cbn [starts]. rewrite orb_true_r. tauto.
    + cbn [negb]. rewrite andb_true_r. destruct ropen; [rewrite bltb_lt; tauto|].
      rewrite orb_true_iff, bleb_le, starts_iff. tauto.
Qed.
End Bounds.

(* ---- the keys of the range, in order ---- *)
Section Visit.
Context {A : Type}.
Variables (key : A -> list Z) (lopen ropen : bool) (l r : list Z) (region : option (list Z * list Z)).
Definition withinb (k : list Z) : bool :=
  match iter_open lopen ropen (l, r) region with Some it => fits_left it k && fits_right it k | None => false end.

Lemma iter_none : iter_open lopen ropen (l, r) region = None -> forall k, ~ within lopen ropen l r region k.
Proof.
  unfold iter_open, within. destruct region as [[s e]|]; [|discriminate].
  set (up := if is_nil e || bltb r e then if negb (is_nil r) then if starts r e && negb (ropen && negb (is_nil r)) then e else r else e else e).
  assert (L : exists lower lo, (if bleb s l then (l, lopen && negb (is_nil l)) else (s, if negb (is_nil l) && starts l s then lopen && negb (is_nil l) else false)) = (lower, lo)
     /\ forall k, above lopen l k -> bcompare s k <> Gt -> bcompare lower k <> Gt).
  { destruct (bleb s l).
    - exists l, (lopen && negb (is_nil l)). split; auto. intros k [->|X] _; [destruct k; cbn; congruence|].
      destruct lopen; auto. destruct X as [X _]. congruence.
    - eexists s, _. split; [reflexivity|]. auto. }
  destruct L as (lower & lo & -> & HL).
  destruct (bltb up lower && negb (starts up lower)) eqn:Q; [|discriminate]. intros _ k (HA & HB & HS & HE).
  apply andb_true_iff in Q. destruct Q as [Q1 Q2]. apply bltb_lt in Q1. apply negb_true_iff in Q2.
  assert (NP : ~ prefix_of up lower) by (rewrite <- starts_iff; congruence).
  specialize (HL k HA HS).
  assert (U : bcompare up k = Lt) by (eapply lt_le_trans; eauto).
  assert (NU : ~ prefix_of up k).
  { intros [x ->]. pose proof (above_prefix up lower x Q1 NP) as Y. apply gt_lt in Y. congruence. }
  assert (Ue : up = e -> False).
  { intros Y. destruct HE as [HE|HE].
    - apply NU. rewrite Y, HE. exists k. auto.
    - rewrite Y in U. pose proof (bcompare_lt_trans _ _ _ HE U) as Z. rewrite bcompare_refl in Z. discriminate. }
  unfold up in *. destruct (is_nil e || bltb r e); [|apply Ue; auto].
  destruct (is_nil r) eqn:Nr; [apply Ue; auto|]. cbn [negb] in *.
  destruct (starts r e && negb (ropen && true)); [apply Ue; auto|].
  destruct HB as [HB|HB]; [subst r; discriminate|]. destruct ropen.
  - pose proof (bcompare_lt_trans _ _ _ HB U) as Z. rewrite bcompare_refl in Z. discriminate.
  - destruct HB as [HB|HB]; [apply HB; apply gt_lt; auto|apply NU; auto].
Qed.

Lemma withinb_iff k : withinb k = true <-> within lopen ropen l r region k.
Proof.
  unfold withinb. destruct (iter_open lopen ropen (l, r) region) as [it|] eqn:Q.
  - rewrite andb_true_iff, (fits_left_within _ _ _ _ _ _ Q), (fits_right_within _ _ _ _ _ _ Q).
    unfold within, in_region. destruct region as [[s e]|]; tauto.
  - split; [discriminate|]. intros H. destruct (iter_none Q k H).
Qed.

Lemma it_shape it : iter_open lopen ropen (l, r) region = Some it -> 
  it_start it = l /\ it_end it = r /\ (it_isend it = true -> it_ropen it = false -> exists s e, region = Some (s, e) /\ it_upper it = e) /\
  (it_lopen it = true -> prefix_of l (it_lower it)) /\ (it_isend it = false -> it_upper it = r).
Proof.
  unfold iter_open. destruct region as [[s e]|].
  - set (up := if is_nil e || bltb r e then _ else e).
    assert (UR : beqb up e = false -> up = r).
    { unfold up. assert (beqb e e = true) by (apply beqb_eq; auto). destruct (is_nil e || bltb r e); [|congruence].
      destruct (negb (is_nil r)); [|congruence]. destruct (starts r e && _); congruence. }
    destruct (bleb s l).
    + destruct (bltb up l && _); [discriminate|]. intros [= <-]. cbn. repeat split; auto.
      * intros Q _. apply beqb_eq in Q. eauto.
      * intros _. exists []. rewrite app_nil_r. auto.
    + destruct (bltb up s && _); [discriminate|]. intros [= <-]. cbn. repeat split; auto.
      * intros Q _. apply beqb_eq in Q. eauto.
      * destruct (negb (is_nil l) && starts l s) eqn:Q; [|discriminate]. intros _. apply andb_true_iff in Q. apply starts_iff. tauto.
  - intros [= <-]. cbn. repeat split; auto; try discriminate. intros _. exists []. rewrite app_nil_r. auto.
Qed.

(* the bounds given to rocksdb never cut off a key that fits *)
Lemma low_fits it k : iter_open lopen ropen (l, r) region = Some it -> fits_left it k = true -> bcompare (low_key it) k <> Gt.
Proof.
  intros Q F. destruct (it_shape it Q) as (S1 & _ & _ & S2 & _). unfold fits_left, low_key in *.
  destruct (it_lopen it).
  - apply andb_true_iff in F. destruct F as [F1 F2]. apply bltb_lt in F1. apply negb_true_iff in F2.
    rewrite above_prefix; auto; [discriminate|]. intros [x ->]. rewrite S1 in F2.
    destruct (S2 eq_refl) as [y Y]. assert (P : prefix_of l (it_lower it ++ x)) by (rewrite Y; exists (y ++ x); rewrite app_assoc; auto).
    apply starts_iff in P. congruence.
  - rewrite app_nil_r. apply bleb_le. auto.
Qed.
Lemma up_fits it k : iter_open lopen ropen (l, r) region = Some it -> key_ok k -> fits_right it k = true -> bcompare k (up_key it) = Lt.
Proof.
  intros Q [B N] F. destruct (it_shape it Q) as (_ & S1 & S2 & _ & S3). unfold fits_right, up_key in *.
  destruct (it_ropen it); [rewrite app_nil_r; apply bltb_lt; auto|].
  apply ff_upper; auto. destruct (it_isend it).
  - destruct (is_nil (it_upper it)) eqn:E; [apply isnil in E; rewrite E; right; exists k; auto|].
    apply bltb_lt in F. left. congruence.
  - apply orb_true_iff in F. rewrite bleb_le, starts_iff in F. rewrite S1, <- (S3 eq_refl) in F. auto.
Qed.

Definition klt (x y : A) : Prop := bcompare (key x) (key y) = Lt.

(* the sets of keys are intervals *)
Lemma fits_right_down it : iter_open lopen ropen (l, r) region = Some it -> forall a b, bcompare a b = Lt ->
  fits_right it b = true -> fits_right it a = true.
Proof.
  intros Q a b L. rewrite !(fits_right_within _ _ _ _ _ _ Q). unfold below. intros [X Y]. split.
  - destruct X as [X|X]; auto. right. destruct ropen; [eapply bcompare_lt_trans; eauto|].
    destruct X as [X|[x ->]]; [left; rewrite (lt_le_trans _ _ _ L X); discriminate|].
    destruct (bcompare a r) eqn:W; [left; congruence|left; congruence|]. right. apply (between_prefix r a x); auto.
    apply gt_lt in W. congruence.
  - destruct region as [[s e]|]; auto. destruct Y as [Y|Y]; auto. right. eapply bcompare_lt_trans; eauto.
Qed.
Lemma fits_left_up it : iter_open lopen ropen (l, r) region = Some it -> forall a b, bcompare a b = Lt ->
  fits_left it a = true -> fits_left it b = true.
Proof.
  intros Q a b L. rewrite !(fits_left_within _ _ _ _ _ _ Q). unfold above. intros [X Y]. split.
  - destruct X as [X|X]; auto. right. destruct lopen.
    + destruct X as [X N]. split; [eapply bcompare_lt_trans; eauto|]. intros [x ->].
      pose proof (above_prefix l a x X N) as Z. apply gt_lt in Z. congruence.
    + rewrite (le_lt_trans _ _ _ X L). discriminate.
  - destruct region as [[s e]|]; auto. rewrite (le_lt_trans _ _ _ Y L). discriminate.
Qed.

Lemma fits_left_false it a : iter_open lopen ropen (l, r) region = Some it -> it_lopen it = false ->
  bltb a (low_key it) = negb (fits_left it a).
Proof.
  intros _ E. unfold fits_left, low_key. rewrite E, app_nil_r. unfold bltb, bleb.
  rewrite (bcompare_antisym (it_lower it) a). destruct (bcompare (it_lower it) a); auto.
Qed.

Lemma visit_forward it ls : iter_open lopen ropen (l, r) region = Some it -> key_sorted key ls ->
  Forall (fun x => key_ok (key x)) ls ->
  visit key true it ls = filter (fun x => withinb (key x)) ls.
Proof.
  intros Q SS K. unfold visit. cbn [fst snd]. unfold withinb. rewrite Q. change (StronglySorted klt ls) in SS.
  assert (SS1 := sorted_filter klt (fun x => negb (bltb (key x) (low_key it))) ls SS).
  rewrite (drop_while_filter klt) with (l := ls); auto.
  2:{ intros x y _ _ L H. apply bltb_lt in H. apply bltb_lt. eapply bcompare_lt_trans; eauto. }
  assert (SS2 := sorted_filter klt (fun x => bltb (key x) (up_key it)) _ SS1).
  rewrite (take_while_filter klt) with (p := fun x => bltb (key x) (up_key it)); auto.
  2:{ intros x y _ _ L H. apply bltb_lt in H. apply bltb_lt. eapply bcompare_lt_trans; eauto. }
  rewrite filter_filter in *. set (g := fun x => _ && _) in *.
  assert (DR : forall m, down klt (fun x => fits_right it (key x)) m).
  { intros m x y _ _ L H. eapply fits_right_down; eauto. }
  assert (Main : filter (fun x => fits_left it (key x) && fits_right it (key x)) (filter g ls) =
                 filter (fun x => fits_left it (key x) && fits_right it (key x)) ls).
  { rewrite filter_filter. apply filter_ext_on. intros x Hx. destruct (fits_left it (key x)) eqn:FL, (fits_right it (key x)) eqn:FR;
    rewrite ?andb_false_r; auto. rewrite Forall_forall in K. specialize (K x Hx).
    assert (g x = true) as ->; auto. unfold g. apply andb_true_iff. split.
    - apply negb_true_iff. apply bltb_not. eapply low_fits; eauto.
    - apply bltb_lt. eapply up_fits; eauto. }
  rewrite <- Main. destruct (it_lopen it) eqn:LO.
  - (* the skipped keys do not fit on the left *)
    assert (G : forall m, StronglySorted klt m ->
      take_while (fun x => fits_right it (key x)) (drop_while (fun x => negb (fits_left it (key x)) && fits_right it (key x)) m) =
      filter (fun x => fits_left it (key x) && fits_right it (key x)) m).
    { induction 1 as [|x m HS IH HF]; cbn; auto. destruct (fits_left it (key x)) eqn:FL; cbn.
      - destruct (fits_right it (key x)) eqn:FR; cbn.
        + f_equal. rewrite (take_while_filter klt) by auto. apply filter_ext_on. intros y Hy.
          rewrite Forall_forall in HF. rewrite (fits_left_up it Q (key x) (key y)); auto. apply HF; auto.
        + rewrite <- (take_while_filter klt); auto.
          * destruct m as [|y m]; auto. cbn. inversion HF; subst. 
            destruct (fits_right it (key y)) eqn:FR'; [rewrite (fits_right_down it Q (key x) (key y)) in FR; auto; discriminate|].
            rewrite andb_false_r. auto.
          * intros a b Ha Hb L. rewrite !andb_true_iff. intros [X Y].
            rewrite Forall_forall in HF. split; [eapply fits_left_up; [eauto|apply HF; auto|auto]|eapply fits_right_down; eauto].
      - destruct (fits_right it (key x)) eqn:FR; cbn; auto. rewrite FR. symmetry.
        clear IH HS FL. induction HF as [|y m L HF IH]; cbn; auto.
        destruct (fits_right it (key y)) eqn:FR'; [rewrite (fits_right_down it Q (key x) (key y)) in FR; auto; discriminate|].
        rewrite andb_false_r. auto. }
    apply G. auto.
  - rewrite (take_while_filter klt) by auto. rewrite !filter_filter. apply filter_ext_on. intros x Hx.
    unfold g. rewrite (fits_left_false it _ Q LO). rewrite negb_involutive.
    destruct (fits_left it (key x)), (fits_right it (key x)); rewrite ?andb_false_r, ?andb_true_r; auto.
Qed.

Lemma visit_backward it ls : iter_open lopen ropen (l, r) region = Some it -> key_sorted key ls ->
  Forall (fun x => key_ok (key x)) ls ->
  visit key false it ls = rev (filter (fun x => withinb (key x)) ls).
Proof.
  intros Q SS K. unfold visit, withinb. rewrite Q. change (StronglySorted klt ls) in SS.
  assert (RS := sorted_rev klt ls SS). set (kgt := fun x y => klt y x) in *.
  assert (SS1 := sorted_filter kgt (fun x => negb (bltb (up_key it) (key x))) _ RS).
  rewrite (drop_while_filter kgt) with (p := fun x => bltb (up_key it) (key x)); auto.
  2:{ intros x y _ _ L H. apply bltb_lt in H. apply bltb_lt. eapply bcompare_lt_trans; [eauto|]. exact L. }
  assert (SS2 := sorted_filter kgt (fun x => bleb (low_key it) (key x)) _ SS1).
  rewrite (take_while_filter kgt) with (p := fun x => bleb (low_key it) (key x)); auto.
  2:{ intros x y _ _ L H. apply bleb_le in H. apply bleb_le. rewrite (le_lt_trans _ _ _ H L). discriminate. }
  rewrite filter_filter in *. set (g := fun x => _ && _) in *.
  assert (Main : filter (fun x => fits_left it (key x) && fits_right it (key x)) (filter g (rev ls)) =
                 rev (filter (fun x => fits_left it (key x) && fits_right it (key x)) ls)).
  { rewrite filter_filter, <- filter_rev. apply filter_ext_on. intros x Hx. apply in_rev in Hx.
    destruct (fits_left it (key x)) eqn:FL, (fits_right it (key x)) eqn:FR;
    rewrite ?andb_false_r; auto. rewrite Forall_forall in K. specialize (K x Hx).
    assert (g x = true) as ->; auto. unfold g. apply andb_true_iff. split.
    - apply negb_true_iff. apply bltb_not. rewrite (up_fits it (key x)); auto. discriminate.
    - apply bleb_le. eapply low_fits; eauto. }
  rewrite <- Main.
  assert (G : forall m, StronglySorted kgt m ->
      take_while (fun x => fits_left it (key x)) (drop_while (fun x => negb (fits_right it (key x)) && fits_left it (key x)) m) =
      filter (fun x => fits_left it (key x) && fits_right it (key x)) m).
  { assert (DL : forall m, down kgt (fun x => fits_left it (key x)) m).
    { intros m x y _ _ L H. eapply (fits_left_up it Q (key y)); eauto. }
    induction 1 as [|x m HS IH HF]; cbn; auto.
    assert (NO : fits_left it (key x) = false -> filter (fun x => fits_left it (key x) && fits_right it (key x)) m = []).
    { intros FL. clear IH HS. induction HF as [|y m L HF IH]; cbn; auto.
      destruct (fits_left it (key y)) eqn:FL'; [rewrite (fits_left_up it Q (key y) (key x)) in FL; auto; discriminate|]. auto. }
    destruct (fits_right it (key x)) eqn:FR; cbn.
    - destruct (fits_left it (key x)) eqn:FL; cbn.
      + f_equal. rewrite (take_while_filter kgt) by auto. apply filter_ext_on. intros y Hy.
        rewrite Forall_forall in HF. rewrite (fits_right_down it Q (key y) (key x)); auto. 2: apply HF; auto. rewrite andb_true_r. auto.
      + rewrite NO; auto.
    - destruct (fits_left it (key x)) eqn:FL; cbn; auto. rewrite FL. rewrite NO; auto. }
  apply G. auto.
Qed.
End Visit.
