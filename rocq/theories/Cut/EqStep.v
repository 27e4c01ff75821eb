(* The equality branch of predicate_cut. *)
From Verif Require Import Common.Bytes Common.KV Expr.Value Expr.Model Expr.Spec Expr.Proofs Expr.RowCompare Cut.Model Cut.Spec Cut.Values Cut.Truth Cut.Collect.
Local Open Scope Z_scope.

(* what the conjuncts that are not cut say *)
Definition live (r : row) (cs : list pred) (cut : list nat) : Prop :=
  forall n p, nth_error cs n = Some p -> ~ List.In n cut -> TRUE r p.

Section Step.
Variable Z : value -> Prop.
Variable C : nat -> ptype.

Lemma leaf_slot_val r i t : row_fz Z C r -> usable t -> leaf_fz Z C t (LSlot i t) -> leaf_val r (LSlot i t) = Some (r i) /\ fz Z t (r i) /\ C i = t.
Proof.
  intros R U (_&E). subst t. destruct (R i U) as (H&Hz). cbn. rewrite cast_holds by exact H. split; [reflexivity|].
  split; [|reflexivity]. split; [|exact Hz]. destruct H as (W&N&[H|H]); split; auto. left. apply is_null_vt. exact H.
Qed.

Lemma leaf_vals_nth r xs : forall l j x, leaf_vals r xs = Some l -> nth_error xs j = Some x ->
  exists v, nth_error l j = Some v /\ leaf_val r x = Some v.
Proof.
  induction xs as [|y xs IH]; intros l j x E N; [destruct j; discriminate|]. cbn [leaf_vals] in E.
  destruct (leaf_val r y) as [v|] eqn:Ev; [|discriminate]. destruct (leaf_vals r xs) as [l'|] eqn:El; [|discriminate].
  injection E as <-. destruct j as [|j]; cbn in *; [injection N as <-; eauto|]. eapply IH; eauto.
Qed.
Lemma leaf_vals_set r xs : forall l j w, leaf_vals r xs = Some l -> leaf_vals r (set_nth j (LVal w) xs) = Some (set_nth j w l).
Proof.
  induction xs as [|y xs IH]; intros l j w E; cbn [leaf_vals] in E.
  - injection E as <-. destruct j; reflexivity.
  - destruct (leaf_val r y) as [v|] eqn:Ev; [|discriminate]. destruct (leaf_vals r xs) as [l'|] eqn:El; [|discriminate].
    injection E as <-. destruct j as [|j]; cbn [set_nth leaf_vals leaf_val].
    + rewrite El. reflexivity.
    + rewrite Ev, (IH l' j w eq_refl). reflexivity.
Qed.

Lemma nth_F2_l {A B} (P : A -> B -> Prop) l l' n x : Forall2 P l l' -> nth_error l n = Some x -> exists y, nth_error l' n = Some y /\ P x y.
Proof. intros F E. pose proof (F2_nth P l l' F n) as H. rewrite E in H. destruct (nth_error l' n); [eauto|contradiction]. Qed.
Lemma nth_F2_r {A B} (P : A -> B -> Prop) l l' n y : Forall2 P l l' -> nth_error l' n = Some y -> exists x, nth_error l n = Some x /\ P x y.
Proof. intros F E. pose proof (F2_nth P l l' F n) as H. rewrite E in H. destruct (nth_error l n); [eauto|contradiction]. Qed.

(* the constant of an equality for the column *)
Lemma eq_head i p : wt Z C p -> current i Req p ->
  exists w, eq_value i p = Some (Some w) /\ usable (C i) /\ fz Z (C i) w /\
    forall r, row_fz Z C r -> TRUE r p -> eqv2 (r i) w.
Proof.
  destruct p as [o a x v|x l hn|o xs vs|xs rows hn|e]; cbn [wt current]; try contradiction.
  - intros (t&U&->&L&F&_) (t'&->&K). destruct o; try congruence; [|contradiction].
    destruct L as (->&E). exists v. split; [reflexivity|]. rewrite E. split; [exact U|]. split; [exact F|].
    intros r R T. apply (T_cmp Z C r R t) in T; [|exact U|split; auto|exact F]. destruct T as (xv&Ex&Q).
    destruct (leaf_slot_val r i t R U (conj eq_refl E)) as (Ev&_). rewrite Ev in Ex. injection Ex as <-.
    unfold eqv2. unfold cmp3 in Q. destruct (order _ _) as [[]|]; try discriminate. reflexivity.
  - intros _ (t&_&D). discriminate.
  - intros (ts&U&L&N&G) (->&_&A). destruct (slot_idx_in i xs 0 A) as (j&t&Sj&Nj). cbn [Nat.add] in Sj.
    destruct (nth_F2_r _ _ _ _ _ L Nj) as (t2&Nt&Lt). destruct Lt as (Et&EC). subst t.
    destruct (nth_F2_l _ _ _ _ _ G Nt) as (v&Nv&Fv&_).
    assert (Ut : usable t2) by (eapply nth_F; eauto).
    exists v. cbn [eq_value]. rewrite Sj, (nth_error_nth _ _ _ Nv), EC. split; [reflexivity|].
    split; [exact Ut|]. split; [exact Fv|].
    intros r R T. apply (T_roweq Z C r R xs vs ts U L G) in T. destruct T as (l&El&Q).
    destruct (leaf_vals_nth r xs l j _ El Nj) as (x&Nx&Ex).
    destruct (nth_F2_l _ _ _ _ _ Q Nx) as (v'&Nv'&Q'). assert (v' = v) as -> by congruence.
    destruct (leaf_slot_val r i t2 R Ut (conj eq_refl EC)) as (Ev&_). rewrite Ev in Ex. injection Ex as <-. exact Q'.
  - intros _ (D&_). discriminate.
Qed.

(* the conjunct with the constant in the place of the column *)
Definition with_val (i : nat) (w : value) (p p' : pred) : Prop :=
  match p with
  | Cmp o a _ v => p' = Cmp o a (LVal w) v
  | In _ l _ => exists hn, p' = In (LVal w) l hn
  | RowCmp o xs vs => exists j t, slot_idx i 0 xs = Some j /\ nth_error xs j = Some (LSlot i t) /\ p' = RowCmp o (set_nth j (LVal w) xs) vs
  | RowIn xs rows _ => exists j t hn, slot_idx i 0 xs = Some j /\ nth_error xs j = Some (LSlot i t) /\ p' = RowIn (set_nth j (LVal w) xs) rows hn
  | Other _ => False
  end.

Lemma slots_set xs : forall j w i, NoDup (slots xs) ->
  NoDup (slots (set_nth j (LVal w) xs)) /\ (List.In i (slots (set_nth j (LVal w) xs)) -> List.In i (slots xs)).
Proof.
  induction xs as [|x xs IH]; intros j w i N; [destruct j; cbn; auto|].
  destruct j as [|j]; destruct x as [k t|v]; cbn [set_nth slots] in *.
  - inversion N; subst. split; [assumption|]. intros H. right. exact H.
  - split; [exact N|auto].
  - inversion N as [|? ? H N']; subst. destruct (IH j w i N') as (A&B). split; [|intros [<-|H2]; [left; reflexivity|right; auto]].
    constructor; [|exact A]. intros H2. apply H. destruct (IH j w k N') as (_&B'). auto.
  - apply IH. exact N.
Qed.

Lemma fz_alike ts l j t x w : Forall2 (fz Z) ts l -> nth_error ts j = Some t -> nth_error l j = Some x -> fz Z t w ->
  Forall2 (fz Z) ts (set_nth j w l).
Proof. intros F Nt _ Fw. eapply F2_set; eauto. Qed.

Lemma alike_set l j x w : nth_error l j = Some x -> eqv2 x w -> Forall2 alike l (set_nth j w l).
Proof.
  intros N Q. eapply F2_of_nth. intros n. destruct (Nat.eq_dec j n) as [<-|D].
  - rewrite N, nth_set_same by (eapply nth_some_lt; eauto). right. exact Q.
  - rewrite nth_set_other by exact D. destruct (nth_error l n); [left; reflexivity|exact Logic.I].
Qed.

Lemma with_val_ok i k w p p' : wt Z C p -> current i k p -> usable (C i) -> fz Z (C i) w -> with_val i w p p' ->
  wt Z C p' /\ forall r, row_fz Z C r -> eqv2 (r i) w -> (TRUE r p <-> TRUE r p').
Proof.
  intros W Cu Ui Fw. destruct p as [o a x v|x l hn|o xs vs|xs rows hn|e]; cbn [wt current with_val] in *; try contradiction.
  - intros ->. destruct W as (t&U&->&L&F&Nb), Cu as (t'&->&_). destruct L as (->&E). rewrite E in Fw.
    assert (Lw : leaf_fz Z C t (LVal w)) by exact Fw.
    split; [exists t; do 4 (split; [solve [auto]|]); exact Nb|]. intros r R Q.
    rewrite (T_cmp Z C r R t o (LSlot i t) v U (conj eq_refl E) F), (T_cmp Z C r R t o _ v U Lw F).
    destruct (leaf_slot_val r i t R U (conj eq_refl E)) as (Ev&_). rewrite Ev. cbn [leaf_val].
    unfold cmp3. split; intros (y&Ey&Hy); injection Ey as <-.
    + exists w. split; [reflexivity|]. rewrite <- (eqv2_l _ _ v Q). exact Hy.
    + exists (r i). split; [reflexivity|]. rewrite (eqv2_l _ _ v Q). exact Hy.
  - intros (hn'&->). destruct W as (t&U&L&NE&F), Cu as (t'&->&_). destruct L as (->&E). rewrite E in Fw.
    assert (Lw : leaf_fz Z C t (LVal w)) by exact Fw.
    split; [exists t; auto|]. intros r R Q.
    rewrite (T_in Z C r R t (LSlot i t) l hn U (conj eq_refl E) F), (T_in Z C r R t _ l hn' U Lw F).
    destruct (leaf_slot_val r i t R U (conj eq_refl E)) as (Ev&_). rewrite Ev. cbn [leaf_val].
    split; intros (y&e&Ey&He&Qe); injection Ey as <-.
    + exists w, e. repeat split; auto. eapply eqv2_trans; [apply eqv2_sym; exact Q|exact Qe].
    + exists (r i), e. repeat split; auto. eapply eqv2_trans; eauto.
  - intros (j&t&Sj&Nj&->). destruct W as (ts&U&L&N&G).
    destruct (nth_F2_r _ _ _ _ _ L Nj) as (t2&Nt&Et&EC). subst t. rewrite EC in Fw, Ui.
    assert (L' : Forall2 (leaf_fz Z C) ts (set_nth j (LVal w) xs)) by (eapply F2_set; eauto).
    split; [exists ts; do 2 (split; [assumption|]); split; [apply (slots_set xs j w i N)|exact G]|]. intros r R Q.
    destruct (leaf_values Z C r R ts xs U L) as (l&El&Fl).
    pose proof (leaf_vals_set r xs l j w El) as El'.
    destruct (leaf_vals_nth r xs l j _ El Nj) as (x&Nx&Ex).
    destruct (leaf_slot_val r i t2 R Ui (conj eq_refl EC)) as (Ev&_). rewrite Ev in Ex. injection Ex as <-.
    assert (P : peval r (RowCmp o xs vs) = peval r (RowCmp o (set_nth j (LVal w) xs) vs)).
    { cbn [peval]. unfold same_len. rewrite set_nth_len, El, El'.
      rewrite (multi_alike Z o ts l (set_nth j w l) vs U Fl (fz_alike ts l j t2 _ w Fl Nt Nx Fw) G (alike_set l j _ w Nx Q)).
      reflexivity. }
    unfold TRUE. rewrite P. reflexivity.
  - intros (j&t&hn'&Sj&Nj&->). destruct W as (ts&U&L&N&NE&G&ZZ).
    destruct (nth_F2_r _ _ _ _ _ L Nj) as (t2&Nt&Et&EC). subst t. rewrite EC in Fw, Ui.
    assert (L' : Forall2 (leaf_fz Z C) ts (set_nth j (LVal w) xs)) by (eapply F2_set; eauto).
    split; [exists ts; do 2 (split; [assumption|]); split; [apply (slots_set xs j w i N)|auto]|]. intros r R Q.
    rewrite (T_rowin Z C r R ZZ ts xs rows hn U L G), (T_rowin Z C r R ZZ ts _ rows hn' U L' G).
    assert (U' : Forall usable ts) by (eapply Forall_impl; [|exact U]; intros ? (H&_); exact H).
    destruct (leaf_values Z C r R ts xs U' L) as (l&El&Fl).
    pose proof (leaf_vals_set r xs l j w El) as El'.
    destruct (leaf_vals_nth r xs l j _ El Nj) as (x&Nx&Ex).
    destruct (leaf_slot_val r i t2 R Ui (conj eq_refl EC)) as (Ev&_). rewrite Ev in Ex. injection Ex as <-.
    rewrite El, El'. 
    assert (Sub : forall g, Forall2 (fun x (e : elem) => eqv2 x (snd e)) l g <-> Forall2 (fun x (e : elem) => eqv2 x (snd e)) (set_nth j w l) g).
    { intros g. split; intros F.
      - apply F2_of_nth. intros n. pose proof (F2_nth _ _ _ F n) as Hn. destruct (Nat.eq_dec j n) as [<-|D].
        + rewrite nth_set_same by (eapply nth_some_lt; eauto). rewrite Nx in Hn. destruct (nth_error g j); [|contradiction].
          eapply eqv2_trans; [apply eqv2_sym; exact Q|exact Hn].
        + rewrite nth_set_other by exact D. exact Hn.
      - apply F2_of_nth. intros n. pose proof (F2_nth _ _ _ F n) as Hn. destruct (Nat.eq_dec j n) as [<-|D].
        + rewrite nth_set_same in Hn by (eapply nth_some_lt; eauto). rewrite Nx. destruct (nth_error g j); [|contradiction].
          eapply eqv2_trans; [exact Q|exact Hn].
        + rewrite nth_set_other in Hn by exact D. exact Hn. }
    split; intros (l2&g&E2&Hg&F); injection E2 as <-; (eexists; exists g; split; [reflexivity|]; split; [exact Hg|apply Sub; exact F]).
Qed.

Lemma replace_slot_ok i k ref w n cs fr cs' fr' p :
  replace_slot i ref w n (cs, fr) = Some (cs', fr') -> nth_error cs n = Some p -> current i k p ->
  exists p', with_val i w p p' /\ cs' = set_nth n p' cs.
Proof.
  intros E N Cu. cbn [replace_slot] in E. rewrite N in E.
  destruct p as [o a x v|x l hn|o xs vs|xs rows hn|e]; cbn [current] in Cu; try contradiction.
  - injection E as <- <-. eexists. split; [reflexivity|reflexivity].
  - injection E as <- <-. eexists. split; [eexists; reflexivity|reflexivity].
  - destruct fr; [discriminate|]. destruct Cu as (_&_&A). destruct (slot_idx_in i xs 0 A) as (j&t&Sj&Nj). cbn [Nat.add] in Sj.
    rewrite Sj in E. injection E as <- <-. eexists. split; [exists j, t; repeat split; eauto|reflexivity].
  - destruct fr; [discriminate|]. destruct Cu as (_&A). destruct (slot_idx_in i xs 0 A) as (j&t&Sj&Nj). cbn [Nat.add] in Sj.
    rewrite Sj in E. injection E as <- <-. eexists. split; [exists j, t; eexists; repeat split; eauto|reflexivity].
Qed.

Lemma with_val_evolved i w p0 p p' k : evolved i p0 p -> role i p0 = Some k -> current i k p -> with_val i w p p' -> evolved (S i) p0 p'.
Proof.
  intros E Ro Cu Wv.
  destruct p as [o a x v|x l hn|o xs vs|xs rows hn|e]; cbn [current with_val] in *; try contradiction.
  - subst p'. destruct p0; cbn in E; try contradiction. destruct Cu as (t&->&_). right.
    destruct E as [E|(_&A)]; [|cbn in A; lia]. injection E as <- <- <- <-. cbn. lia.
  - destruct Wv as (hn'&->). destruct p0; cbn in E; try contradiction. destruct Cu as (t&->&_). right.
    destruct E as [E|(_&A)]; [|cbn in A; lia]. injection E as <- <- <-. cbn. lia.
  - destruct Wv as (j&t&Sj&Nj&->). destruct p0; cbn in E; try contradiction. destruct E as (->&->&F). cbn. repeat split.
    eapply lev_set; eauto. eapply levs_mono; [|exact F]. lia.
  - destruct Wv as (j&t&hn'&Sj&Nj&->). destruct p0; cbn in E; try contradiction. cbn.
    eapply lev_set; eauto. eapply levs_mono; [|exact E]. lia.
Qed.

Definition keptat (cs cs' : list pred) (n : nat) : Prop := nth_error cs' n = nth_error cs n.

Lemma replace_all_ok i ref w cs0 cut : usable (C i) -> fz Z (C i) w ->
  forall ns cs fr cs' fr',
  replace_all i ref w ns (cs, fr) = Some (cs', fr') -> NoDup ns ->
  Forall2 (evolved (S i)) cs0 cs -> Forall (wt Z C) cs ->
  (forall n, List.In n ns -> exists k p0 p, nth_error cs0 n = Some p0 /\ nth_error cs n = Some p /\ role i p0 = Some k /\ evolved i p0 p) ->
  Forall2 (evolved (S i)) cs0 cs' /\ Forall (wt Z C) cs' /\
  (forall n, ~ List.In n ns -> nth_error cs' n = nth_error cs n) /\
  (forall r, row_fz Z C r -> eqv2 (r i) w -> (live r cs cut <-> live r cs' cut)).
Proof.
  intros U F. induction ns as [|n ns IH]; intros cs fr cs' fr' E ND Ev W Ro; cbn [replace_all] in E.
  - injection E as <- <-. repeat split; auto.
  - destruct (replace_slot i ref w n (cs, fr)) as [[cs1 fr1]|] eqn:E1; [|discriminate].
    destruct (Ro n (or_introl eq_refl)) as (k&p0&p&N0&Np&Rp&Ep).
    pose proof (role_current i k p0 p Rp Ep) as Cu.
    destruct (replace_slot_ok i k ref w n cs fr cs1 fr1 p E1 Np Cu) as (p'&Wv&->).
    pose proof (nth_F _ _ _ _ W Np) as Wp.
    destruct (with_val_ok i k w p p' Wp Cu U F Wv) as (Wp'&Tp').
    pose proof (with_val_evolved i w p0 p p' k Ep Rp Cu Wv) as Ep'.
    inversion ND as [|? ? Nn ND']; subst.
    destruct (IH (set_nth n p' cs) fr1 cs' fr' E ND') as (A&B&D&G).
    + eapply F2_set; eauto.
    + apply F_set; auto.
    + intros m Hm. destruct (Ro m (or_intror Hm)) as (k2&q0&q&M0&Mq&Rq&Eq). exists k2, q0, q.
      assert (n <> m) by (intros ->; contradiction). rewrite nth_set_other by assumption. auto.
    + split; [exact A|]. split; [exact B|]. split.
      * intros m Hm. cbn in Hm. rewrite D by tauto. apply nth_set_other. tauto.
      * intros r R Q. rewrite <- (G r R Q). specialize (Tp' r R Q). split; intros Lv m q Nq Cq.
        -- destruct (Nat.eq_dec n m) as [<-|Dn].
           ++ rewrite nth_set_same in Nq by (eapply nth_some_lt; eauto). injection Nq as <-. apply Tp'. eapply Lv; eauto.
           ++ rewrite nth_set_other in Nq by exact Dn. eapply Lv; eauto.
        -- destruct (Nat.eq_dec n m) as [<-|Dn].
           ++ assert (q = p) as -> by congruence. apply Tp'. eapply Lv; eauto. apply nth_set_same. eapply nth_some_lt; eauto.
           ++ eapply Lv; eauto. rewrite nth_set_other by exact Dn. exact Nq.
Qed.

(* what the conjuncts are while column i is worked on *)
Definition state (cs0 : list pred) (i : nat) (cs : list pred) (cut : list nat) : Prop :=
  Forall2 (evolved i) cs0 cs /\ Forall (wt Z C) cs /\
  Forall (fun n => exists p0, nth_error cs0 n = Some p0 /\
                     match p0 with Cmp _ _ x _ | In x _ _ => (leaf_top x <= i)%nat | _ => False end) cut.

Definition step_ok (cs0 : list pred) (i : nat) (cs : list pred) (cut : list nat) (res : cutres) : Prop :=
  match res with
  | Empty => forall r, row_fz Z C r -> ~ live r cs cut
  | Go cs' cut' => state cs0 (S i) cs' cut' /\ forall r, row_fz Z C r -> (live r cs cut <-> live r cs' cut')
  end.

Lemma role_not_cut cs0 i k cs cut n p0 : state cs0 i cs cut -> nth_error cs0 n = Some p0 -> role i p0 = Some k -> ~ List.In n cut.
Proof.
  intros (_&_&F) N R H. rewrite Forall_forall in F. destruct (F n H) as (q&Nq&L).
  rewrite N in Nq. injection Nq as <-. destruct p0 as [o a x v|x l hn| | |]; try contradiction; cbn in R;
    destruct x as [j t|w]; cbn in R; try discriminate; destruct (Nat.eqb_spec j i); try discriminate; cbn in L; lia.
Qed.
Lemma state_mono cs0 i cs cut : state cs0 i cs cut -> state cs0 (S i) cs cut.
Proof.
  intros (A&B&D). split; [|split; [exact B|]].
  - clear - A. induction A; constructor; auto. eapply evolved_mono; [|eassumption]. lia.
  - eapply Forall_impl; [|exact D]. intros n (q&Nq&L). exists q. split; [exact Nq|]. destruct q; try contradiction; lia.
Qed.

Lemma state_nth cs0 i cs cut n p0 : state cs0 i cs cut -> nth_error cs0 n = Some p0 ->
  exists p, nth_error cs n = Some p /\ evolved i p0 p /\ wt Z C p.
Proof.
  intros (A&B&_) N. destruct (nth_F2_l _ _ _ _ _ A N) as (p&Np&E). exists p. split; [exact Np|]. split; [exact E|]. eapply nth_F; eauto.
Qed.

Lemma cut_eq_ok cs0 i cs cut res : Forall rows_once cs0 -> state cs0 i cs cut ->
  cut_eq i (collect i 0 cs0 sp0) cs cut = Some res -> step_ok cs0 i cs cut res.
Proof.
  intros O1 St E. unfold cut_eq in E. set (s := collect i 0 cs0 sp0) in *.
  destruct (sp_eq s) as [|n q] eqn:Eq; [discriminate|].
  assert (Hall : forall k m, List.In m (lists s k) <-> exists p, nth_error cs0 m = Some p /\ role i p = Some k)
    by (intros; apply collect_in; exact O1).
  assert (Hn : List.In n (lists s Req)) by (cbn; rewrite Eq; left; reflexivity).
  apply Hall in Hn. destruct Hn as (p0&N0&R0). destruct (state_nth _ _ _ _ _ _ St N0) as (p&Np&Ep&Wp).
  pose proof (role_current i Req p0 p R0 Ep) as Cu. destruct (eq_head i p Wp Cu) as (w&Ew&Ui&Fw&Tw).
  rewrite Np, Ew in E. set (ns := q ++ sp_lt s ++ sp_gt s ++ sp_in s) in *.
  destruct (replace_all i (sp_ref s) w ns (cs, false)) as [[cs' fr']|] eqn:Er; [|discriminate]. injection E as <-.
  pose proof (collect_nodup i Req cs0 O1) as N1. fold s in N1. cbn [lists] in N1. rewrite Eq in N1. inversion N1 as [|? ? Nq N1']; subst.
  pose proof (collect_nodup i Rlt cs0 O1) as N2. pose proof (collect_nodup i Rgt cs0 O1) as N3. pose proof (collect_nodup i Rin cs0 O1) as N4.
  fold s in N2, N3, N4. cbn [lists] in N2, N3, N4.
  assert (Mem : forall m, List.In m ns -> exists k, List.In m (lists s k) /\ (k = Req -> List.In m q)).
  { intros m H. unfold ns in H. rewrite !in_app_iff in H. destruct H as [H|[H|[H|H]]];
      [exists Req; cbn; rewrite Eq|exists Rlt|exists Rgt|exists Rin]; (split; [cbn; auto|]); congruence || auto. }
  assert (Dis : forall k k' m, List.In m (lists s k) -> List.In m (lists s k') -> k = k').
  { intros k k' m H1 H2. apply Hall in H1, H2. destruct H1 as (a&Na&Ra), H2 as (b&Nb&Rb). congruence. }
  assert (NDns : NoDup ns).
  { unfold ns.
    assert (App : forall (a b : list nat), NoDup a -> NoDup b -> (forall m, List.In m a -> ~ List.In m b) -> NoDup (a ++ b)).
    { clear. induction a as [|x a IH]; intros b Na Nb D; cbn; [exact Nb|]. inversion Na; subst. constructor.
      - rewrite in_app_iff. intros [H|H]; [contradiction|]. apply (D x); [left; reflexivity|exact H].
      - apply IH; auto. intros m Hm. apply D. right. exact Hm. }
    apply App; [exact N1'| |].
    - apply App; [exact N2| |].
      + apply App; [exact N3|exact N4|]. intros m A B. pose proof (Dis Rgt Rin m A B). discriminate.
      + intros m A B. rewrite in_app_iff in B. destruct B as [B|B]; [pose proof (Dis Rlt Rgt m A B)|pose proof (Dis Rlt Rin m A B)]; discriminate.
    - intros m A B. assert (List.In m (lists s Req)) as A' by (cbn; rewrite Eq; right; exact A).
      rewrite !in_app_iff in B. destruct B as [B|[B|B]];
        [pose proof (Dis Req Rlt m A' B)|pose proof (Dis Req Rgt m A' B)|pose proof (Dis Req Rin m A' B)]; discriminate. }
  assert (Nns : ~ List.In n ns).
  { intros H. destruct (Mem n H) as (k&Hk&Kq). assert (List.In n (lists s Req)) as Hr by (cbn; rewrite Eq; left; reflexivity).
    apply Nq, Kq. eapply Dis; eauto. }
  destruct (replace_all_ok i (sp_ref s) w cs0 cut Ui Fw ns cs false cs' fr' Er NDns) as (A&B&D&G).
  - destruct St as (A&_). clear - A. induction A; constructor; auto. eapply evolved_mono; [|eassumption]. lia.
  - apply St.
  - intros m Hm. destruct (Mem m Hm) as (k&Hk&_). apply Hall in Hk. destruct Hk as (q0&M0&Rq).
    destruct (state_nth _ _ _ _ _ _ St M0) as (q1&Mq&Eq1&_). eauto 10.
  - cbn [step_ok]. split.
    + split; [exact A|]. split; [exact B|]. apply (state_mono _ _ _ _ St).
    + intros r R. assert (NC : ~ List.In n cut) by (eapply role_not_cut; eauto). split; intros Lv.
      * apply (G r R); [|exact Lv]. apply Tw; [exact R|]. eapply Lv; eauto.
      * apply (G r R); [|exact Lv]. apply Tw; [exact R|]. eapply Lv; eauto. rewrite D by exact Nns. exact Np.
Qed.
End Step.
