(* The branch of predicate_cut for bounds only. *)
From Coq Require Import Permutation.
From Verif Require Import Common.Bytes Common.KV Expr.Value Expr.Model Expr.Spec Expr.Proofs Expr.RowCompare Cut.Model Cut.Spec Cut.Values Cut.Truth Cut.Collect Cut.EqStep.
Local Open Scope Z_scope.

(* ---- the sort puts a least element first ---- *)
Section Sorting.
Variable A : Type.
Variable lt : A -> A -> option bool.
Variable P : A -> Prop.
Variable R : A -> A -> Prop.
Hypothesis R_refl : forall x, P x -> R x x.
Hypothesis R_trans : forall x y z, P x -> P y -> P z -> R x y -> R y z -> R x z.
Hypothesis lt_true : forall x y, P x -> P y -> lt x y = Some true -> R x y.
Hypothesis lt_false : forall x y, P x -> P y -> lt x y = Some false -> R y x.

Lemma down_perm x back : forall l, down A lt x back = Some l -> Permutation (x :: back) l.
Proof.
  induction back as [|y q IH]; intros l E; cbn [down] in E; [injection E as <-; apply Permutation_refl|].
  destruct (lt x y) as [[]|]; [|injection E as <-; apply Permutation_refl|discriminate].
  destruct (down A lt x q) as [q'|]; [|discriminate]. injection E as <-. specialize (IH q' eq_refl).
  eapply perm_trans; [apply perm_swap|]. constructor. exact IH.
Qed.
Lemma down_last x y : lt x y = Some false -> forall back l, down A lt x (back ++ [y]) = Some l -> exists l', l = l' ++ [y].
Proof.
  intros L. induction back as [|z q IH]; intros l E; cbn [down app] in E.
  - rewrite L in E. injection E as <-. exists [x]. reflexivity.
  - destruct (lt x z) as [[]|]; [| |discriminate].
    + destruct (down A lt x (q ++ [y])) as [q'|] eqn:E2; [|discriminate]. injection E as <-.
      destruct (IH q' eq_refl) as (l'&->). exists (z :: l'). reflexivity.
    + injection E as <-. exists (x :: z :: q). reflexivity.
Qed.

Definition first_least (l : list A) : Prop := match l with [] => True | h :: _ => Forall (R h) l end.

Lemma insert_ok x l l' : P x -> Forall P l -> first_least l -> insert A lt x l = Some l' ->
  Permutation (x :: l) l' /\ first_least l'.
Proof.
  intros Px Pl FL E. destruct l as [|y q]; cbn [insert] in E.
  - injection E as <-. split; [apply Permutation_refl|]. constructor; [apply R_refl; exact Px|constructor].
  - inversion Pl as [|? ? Py Pq]; subst. cbn [first_least] in FL. destruct (lt x y) as [[]|] eqn:L; [| |discriminate].
    + injection E as <-. split; [apply Permutation_refl|]. cbn [first_least]. constructor; [apply R_refl; exact Px|].
      rewrite Forall_forall in *. intros z Hz. apply (R_trans x y z); auto.
    + destruct (down A lt x (rev (y :: q))) as [back|] eqn:D; [|discriminate]. injection E as <-.
      pose proof (down_perm _ _ _ D) as Pm. cbn [rev] in D. destruct (down_last x y L _ _ D) as (l'&->).
      assert (Pm2 : Permutation (x :: y :: q) (rev (l' ++ [y]))).
      { eapply perm_trans; [|apply Permutation_rev]. eapply perm_trans; [|exact Pm]. constructor. apply Permutation_rev. }
      split; [exact Pm2|]. rewrite rev_app_distr in *. cbn [rev app first_least] in *.
      rewrite Forall_forall in *. intros z Hz. apply (Permutation_in z (Permutation_sym Pm2)) in Hz.
      destruct Hz as [<-|Hz]; [apply lt_false; auto|apply FL; exact Hz].
Qed.

Lemma isort_ok rest : forall done l, Forall P done -> Forall P rest -> first_least done -> isort A lt done rest = Some l ->
  Permutation (done ++ rest) l /\ first_least l.
Proof.
  induction rest as [|x rest IH]; intros done l Pd Pr FL E; cbn [isort] in E.
  - injection E as <-. rewrite app_nil_r. split; [apply Permutation_refl|exact FL].
  - inversion Pr as [|? ? Px Pr']; subst. destruct (insert A lt x done) as [d|] eqn:Ei; [|discriminate].
    destruct (insert_ok x done d Px Pd FL Ei) as (Pm&FL').
    destruct (IH d l) as (Pm2&FL2); auto.
    { rewrite Forall_forall in *. intros z Hz. apply (Permutation_in z (Permutation_sym Pm)) in Hz. destruct Hz as [<-|Hz]; auto. }
    split; [|exact FL2]. eapply perm_trans; [|exact Pm2]. eapply perm_trans; [apply Permutation_sym, Permutation_middle|].
    change (x :: done ++ rest) with ((x :: done) ++ rest). apply Permutation_app_tail. exact Pm.
Qed.
End Sorting.

(* ---- order ---- *)

Lemma order_lt_trans a b c : order a b = Some Lt -> order b c = Some Lt -> order a c = Some Lt.
Proof.
  destruct a as [|m k|s], b as [|m' k'|s'], c as [|m2 k2|s2]; cbn; try discriminate.
  - intros E1 E2. injection E1 as E1. injection E2 as E2. apply Z.compare_lt_iff in E1, E2. f_equal. apply Z.compare_lt_iff.
    set (a := 2 ^ Z.of_nat k) in *. set (b := 2 ^ Z.of_nat k') in *. set (c := 2 ^ Z.of_nat k2) in *.
    assert (0 < a) by (apply Z.pow_pos_nonneg; lia). assert (0 < b) by (apply Z.pow_pos_nonneg; lia).
    assert (0 < c) by (apply Z.pow_pos_nonneg; lia).
    apply (Z.mul_lt_mono_pos_r b); [assumption|].
    apply Z.lt_trans with (m' * a * c).
    + replace (m * c * b) with (m * b * c) by ring. apply Z.mul_lt_mono_pos_r; assumption.
    + replace (m' * a * c) with (m' * c * a) by ring. replace (m2 * a * b) with (m2 * b * a) by ring. apply Z.mul_lt_mono_pos_r; assumption.
  - intros E1 E2. injection E1 as E1. injection E2 as E2. f_equal. eapply bcompare_lt_trans; eauto.
Qed.
Lemma order_eq_r a b c : order b c = Some Eq -> order a b = order a c.
Proof.
  intros E. rewrite (order_antisym b a), (order_antisym c a). rewrite (order_eq_l b c a); [reflexivity|exact E].
Qed.
Lemma order_gt_trans a b c : order a b = Some Gt -> order b c = Some Gt -> order a c = Some Gt.
Proof.
  intros E1 E2. rewrite (order_antisym c a). rewrite (order_lt_trans c b a); [reflexivity| |].
  - rewrite (order_antisym b c), E2. reflexivity.
  - rewrite (order_antisym a b), E1. reflexivity.
Qed.

Lemma cmp3_rel o x y : cmp3 o x y = Some true <-> exists c, order x y = Some c /\ rel o c = true.
Proof.
  unfold cmp3. destruct (order x y) as [c|]; cbn; split; try discriminate.
  - intros E. exists c. split; [reflexivity|congruence].
  - intros (c'&E&H). congruence.
  - intros (c'&E&_). discriminate.
Qed.

(* the bounds of one direction *)
Definition side (sg : Z) (o : cmpop) : Prop :=
  match o with CLt | CLe => sg = 1 | CGt | CGe => sg = -1 | _ => False end.
Definition implies (a b : cmpop * value) : Prop :=
  forall x, cmp3 (fst a) (denote x) (denote (snd a)) = Some true -> cmp3 (fst b) (denote x) (denote (snd b)) = Some true.

Lemma less_imp t sg a b c : usable t -> side sg (fst a) -> side sg (fst b) ->
  fit t (snd a) -> fit t (snd b) -> is_null (snd a) = false -> is_null (snd b) = false ->
  less sg a b = Some c -> if c then implies a b else implies b a.
Proof.
  intros U Sa Sb Fa Fb Na Nb E. unfold less in E.
  destruct (fit_compare t (snd a) (snd b) U Fa Fb Na Nb) as (d&Ed&Od). rewrite Ed in E. injection E as <-.
  destruct a as [oa va], b as [ob vb]; cbn [fst snd] in *.
  assert (Od' : order (denote vb) (denote va) = Some (CompOpp (d ?= 0))) by (rewrite (order_antisym (denote va)), Od; reflexivity).
  destruct (sg * d <? 0) eqn:L; cbn [orb].
  - apply Z.ltb_lt in L. intros x H. cbn [fst snd] in *. apply cmp3_rel in H. destruct H as (c&Oc&Rc). apply cmp3_rel.
    destruct oa; cbn in Sa; try contradiction; subst sg; destruct ob; cbn in Sb; try contradiction; try discriminate;
      first [assert (D : (d ?= 0) = Lt) by (apply Z.compare_lt_iff; lia) | assert (D : (d ?= 0) = Gt) by (apply Z.compare_gt_iff; lia)];
      rewrite D in Od; destruct c; try discriminate;
      first [ solve [exists Lt; split; [eapply order_lt_trans; eassumption|reflexivity]]
            | solve [exists Gt; split; [eapply order_gt_trans; eassumption|reflexivity]]
            | solve [rewrite (order_eq_l _ _ (denote vb) Oc), Od; eexists; split; reflexivity] ].
  - apply Z.ltb_ge in L. destruct (Z.eqb_spec d 0) as [->|Nd]; cbn [andb].
    + cbn in Od, Od'. destruct (strict oa) eqn:St.
      * intros x H. cbn [fst snd] in *. apply cmp3_rel in H. destruct H as (c&Oc&Rc). apply cmp3_rel.
        exists c. rewrite <- (order_eq_r _ _ _ Od). split; [exact Oc|].
        destruct oa; cbn in Sa, St; try contradiction; try discriminate; subst sg; destruct ob; cbn in Sb; try contradiction; try discriminate;
          destruct c; try discriminate; reflexivity.
      * intros x H. cbn [fst snd] in *. apply cmp3_rel in H. destruct H as (c&Oc&Rc). apply cmp3_rel.
        exists c. rewrite <- (order_eq_r _ _ _ Od'). split; [exact Oc|].
        destruct oa; cbn in Sa, St; try contradiction; try discriminate; subst sg; destruct ob; cbn in Sb; try contradiction; try discriminate;
          destruct c; try discriminate; reflexivity.
    + intros x H. cbn [fst snd] in *. apply cmp3_rel in H. destruct H as (c&Oc&Rc). apply cmp3_rel.
      destruct oa; cbn in Sa; try contradiction; subst sg; destruct ob; cbn in Sb; try contradiction; try discriminate;
      first [assert (D : (d ?= 0) = Gt) by (apply Z.compare_gt_iff; lia) | assert (D : (d ?= 0) = Lt) by (apply Z.compare_lt_iff; lia)];
      rewrite D in Od'; cbn in Od'; destruct c; try discriminate;
      first [ solve [exists Lt; split; [eapply order_lt_trans; eassumption|reflexivity]]
            | solve [exists Gt; split; [eapply order_gt_trans; eassumption|reflexivity]]
            | solve [rewrite (order_eq_l _ _ (denote va) Oc), Od'; eexists; split; reflexivity] ].
Qed.

Section Step.
Variable Z : value -> Prop.
Variable C : nat -> ptype.

Lemma bounds_ok cs ns : forall bs, bounds cs ns = Some bs ->
  map fst bs = ns /\ Forall (fun e => bound cs (fst e) = Some (snd e)) bs.
Proof.
  induction ns as [|n ns IH]; intros bs E; cbn [bounds] in E; [injection E as <-; auto|].
  destruct (bound cs n) as [b|] eqn:Eb; [|discriminate]. destruct (bounds cs ns) as [bs'|]; [|discriminate]. injection E as <-.
  destruct (IH bs' eq_refl) as (A&B). cbn. split; [congruence|]. constructor; auto.
Qed.

Definition bnd (i : nat) (sg : BinNums.Z) (cs : list pred) (n : nat) : Prop :=
  exists o a v, nth_error cs n = Some (Cmp o a (LSlot i (C i)) v) /\ wt Z C (Cmp o a (LSlot i (C i)) v) /\ side sg o.

Lemma bnd_facts i sg cs n : bnd i sg cs n -> exists o v, bound cs n = Some (o, v) /\ side sg o /\ usable (C i) /\ fit (C i) v /\ is_null v = false.
Proof.
  intros (o&a&v&N&(t&U&_&(Et&_)&(F&_)&Nb)&S0). subst t. exists o, v. unfold bound. rewrite N. split; [reflexivity|]. split; [exact S0|].
  split; [exact U|]. split; [exact F|]. destruct o; cbn in S0; try contradiction; exact Nb.
Qed.

Lemma T_bnd i sg cs n o v p : bnd i sg cs n -> bound cs n = Some (o, v) -> nth_error cs n = Some p ->
  forall r, row_fz Z C r -> (TRUE r p <-> cmp3 o (denote (r i)) (denote v) = Some true).
Proof.
  intros (o'&a&v'&N&(t&U&Ea&(Et&_)&F&Nb)&S0) B Np r R. subst t a. unfold bound in B. rewrite N in B. injection B as -> ->.
  assert (p = Cmp o (arg (C i)) (LSlot i (C i)) v) as -> by congruence.
  rewrite (T_cmp Z C r R (C i) o (LSlot i (C i)) v U (conj eq_refl eq_refl) F).
  destruct (leaf_slot_val Z C r i (C i) R U (conj eq_refl eq_refl)) as (Ev&_). rewrite Ev. split.
  - intros (y&Ey&H). injection Ey as <-. exact H.
  - intros H. eauto.
Qed.

Lemma sort_bounds_ok i sg cs ns ls : Forall (bnd i sg cs) ns -> sort_bounds sg cs ns = Some ls ->
  Permutation ns ls /\
  match ls with
  | [] => True
  | h :: _ => exists bh, bound cs h = Some bh /\ forall m, List.In m ns -> exists bm, bound cs m = Some bm /\ implies bh bm
  end.
Proof.
  intros F E. unfold sort_bounds in E. destruct (bounds cs ns) as [bs|] eqn:Eb; [|discriminate].
  destruct (bounds_ok cs ns bs Eb) as (Mf&Fb).
  unfold sorted in E. destruct (_ || _); [|discriminate].
  destruct (isort _ _ [] bs) as [l|] eqn:Ei; [|discriminate]. injection E as <-.
  set (P := fun e : nat * (cmpop * value) => bound cs (fst e) = Some (snd e) /\ side sg (fst (snd e)) /\ usable (C i) /\ fit (C i) (snd (snd e)) /\ is_null (snd (snd e)) = false).
  assert (Pb : Forall P bs).
  { rewrite Forall_forall in *. intros e He. specialize (Fb e He). assert (Hn : List.In (fst e) ns) by (rewrite <- Mf; apply in_map; exact He).
    destruct (bnd_facts i sg cs (fst e) (F _ Hn)) as (o&v&B&S0&U&Ft&Nv). assert (snd e = (o, v)) by congruence. unfold P. rewrite Fb.
    rewrite H in *. auto. }
  destruct (isort_ok _ (fun a b => less sg (snd a) (snd b)) P (fun a b => implies (snd a) (snd b))) with (rest := bs) (done := @nil (nat * (cmpop * value))) (l := l) as (Pm&FL);
    [intros x _ y H; exact H|intros x y z _ _ _ H1 H2 w Hw; auto| | |constructor|exact Pb|exact Logic.I|exact Ei|].
  - intros x y (_&Sx&U&Fx&Nx) (_&Sy&_&Fy&Ny) L. exact (less_imp (C i) sg _ _ true U Sx Sy Fx Fy Nx Ny L).
  - intros x y (_&Sx&U&Fx&Nx) (_&Sy&_&Fy&Ny) L. exact (less_imp (C i) sg _ _ false U Sx Sy Fx Fy Nx Ny L).
  - cbn [app] in Pm. split; [rewrite <- Mf; apply Permutation_map; exact Pm|].
    destruct l as [|h q]; cbn [map]; [exact Logic.I|]. cbn [first_least] in FL.
    rewrite Forall_forall in Pb, FL. exists (snd h).
    assert (List.In h bs) as Hh by (apply (Permutation_in h (Permutation_sym Pm)); left; reflexivity).
    split; [apply (Pb h Hh)|]. intros m Hm. rewrite <- Mf in Hm. apply in_map_iff in Hm. destruct Hm as (e&<-&He).
    exists (snd e). split; [apply (Pb e He)|]. apply FL. apply (Permutation_in e Pm). exact He.
Qed.

Lemma cut_range_ok cs0 i cs cut res : Forall rows_once cs0 -> state Z C cs0 i cs cut ->
  cut_range (collect i 0 cs0 sp0) cs cut = Some res -> step_ok Z C cs0 i cs cut res.
Proof.
  intros O1 St E. unfold cut_range in E. set (s := collect i 0 cs0 sp0) in *.
  assert (Hall : forall k m, List.In m (lists s k) <-> exists p, nth_error cs0 m = Some p /\ role i p = Some k)
    by (intros; apply collect_in; exact O1).
  assert (Bnd : forall k sg m, List.In m (lists s k) -> (k = Rlt /\ sg = 1 \/ k = Rgt /\ sg = -1) ->
            bnd i sg cs m /\ ~ List.In m cut /\ exists p0, nth_error cs0 m = Some p0 /\ (exists o a v, p0 = Cmp o a (LSlot i (C i)) v) /\ nth_error cs m = Some p0).
  { intros k sg m Hm Hk. pose proof Hm as Hm2. apply Hall in Hm2. destruct Hm2 as (p0&N0&R0).
    destruct (state_nth _ _ _ _ _ _ _ _ St N0) as (p&Np&Ep&Wp).
    pose proof (role_current i k p0 p R0 Ep) as Cu. assert (NC : ~ List.In m cut) by (eapply role_not_cut; eauto).
    destruct p as [o a x v|x l hn|o xs vs|xs rows hn|e]; cbn [current] in Cu; try contradiction.
    - destruct Cu as (t&->&K). pose proof Wp as (t'&_&_&(Et'&ECi)&_). subst t'. rewrite <- ECi in *.
      split; [exists o, a, v; split; [exact Np|]; split; [exact Wp|]; destruct o; cbn; try contradiction; destruct Hk as [(->&->)|(->&->)]; congruence|].
      split; [exact NC|]. exists p0. split; [exact N0|]. destruct p0; cbn in Ep; try contradiction.
      destruct Ep as [Ep|(_&L)]; [|cbn in L; lia]. injection Ep as -> -> <- ->. eauto.
    - destruct Cu as (t&_&->). destruct Hk as [(D&_)|(D&_)]; discriminate.
    - destruct Cu as (_&->&_). destruct Hk as [(D&_)|(D&_)]; discriminate.
    - destruct Cu as (->&_). destruct Hk as [(D&_)|(D&_)]; discriminate. }
  destruct (sort_bounds 1 cs (sp_lt s)) as [ls|] eqn:El; [|discriminate].
  destruct (sort_bounds (-1) cs (sp_gt s)) as [gs|] eqn:Eg; [|discriminate].
  assert (Fl : Forall (bnd i 1 cs) (sp_lt s)).
  { rewrite Forall_forall. intros m Hm. apply (Bnd Rlt 1 m Hm). auto. }
  assert (Fg : Forall (bnd i (-1) cs) (sp_gt s)).
  { rewrite Forall_forall. intros m Hm. apply (Bnd Rgt (-1) m Hm). auto. }
  destruct (sort_bounds_ok i 1 cs _ ls Fl El) as (Pl&Hl). destruct (sort_bounds_ok i (-1) cs _ gs Fg Eg) as (Pg&Hg).
  pose proof (collect_nodup i Rlt cs0 O1) as NDl. pose proof (collect_nodup i Rgt cs0 O1) as NDg. fold s in NDl, NDg. cbn [lists] in NDl, NDg.
  apply (Permutation_NoDup Pl) in NDl. apply (Permutation_NoDup Pg) in NDg.
  assert (Dis : forall m, List.In m ls -> List.In m gs -> False).
  { intros m A B. apply (Permutation_in m (Permutation_sym Pl)) in A. apply (Permutation_in m (Permutation_sym Pg)) in B.
    apply (Hall Rlt) in A. apply (Hall Rgt) in B. destruct A as (a&Na&Ra), B as (b&Nb&Rb). congruence. }
  assert (Inl : forall m, List.In m ls -> List.In m (sp_lt s)) by (intros m; apply (Permutation_in m (Permutation_sym Pl))).
  assert (Ing : forall m, List.In m gs -> List.In m (sp_gt s)) by (intros m; apply (Permutation_in m (Permutation_sym Pg))).
  (* the head of a sorted list implies the rest *)
  assert (Rest : forall k sg ns hd tl_, (k = Rlt /\ sg = 1 \/ k = Rgt /\ sg = -1) -> lists s k = ns ->
            (exists bh, bound cs hd = Some bh /\ forall m, List.In m ns -> exists bm, bound cs m = Some bm /\ implies bh bm) ->
            List.In hd ns -> (forall m, List.In m tl_ -> List.In m ns) ->
            forall r, row_fz Z C r -> (exists p, nth_error cs hd = Some p /\ TRUE r p) -> forall m p, List.In m tl_ -> nth_error cs m = Some p -> TRUE r p).
  { intros k sg ns hd tl_ Hk Ens (bh&Ebh&Him) Hhd Htl r R (ph&Nph&Tph) m p Hm Np.
    subst ns. destruct (Bnd k sg hd Hhd Hk) as (Bh&_). destruct (Bnd k sg m (Htl m Hm) Hk) as (Bm&_).
    destruct (Him m (Htl m Hm)) as (bm&Ebm&Imp). destruct bh as [oh vh], bm as [om vm].
    apply (T_bnd i sg cs m om vm p Bm Ebm Np r R). apply Imp. apply (T_bnd i sg cs hd oh vh ph Bh Ebh Nph r R). exact Tph. }
  assert (Mem_l : forall m, List.In m (tl ls) -> List.In m ls) by (intros m; destruct ls; [intros []|right; assumption]).
  assert (Mem_g : forall m, List.In m (tl gs) -> List.In m gs) by (intros m; destruct gs; [intros []|right; assumption]).
  assert (CutOk : Forall (fun n => exists p0, nth_error cs0 n = Some p0 /\ match p0 with Cmp _ _ x _ | In x _ _ => (leaf_top x <= S i)%nat | _ => False end) (cut ++ ls ++ gs)).
  { rewrite Forall_forall. intros m Hm. rewrite !in_app_iff in Hm. destruct Hm as [Hm|Hm].
    - destruct (state_mono _ _ _ _ _ _ St) as (_&_&F). rewrite Forall_forall in F. apply F. exact Hm.
    - assert (exists k sg, List.In m (lists s k) /\ (k = Rlt /\ sg = 1 \/ k = Rgt /\ sg = -1)) as (k&sg&Hk&K)
        by (destruct Hm; [exists Rlt, 1|exists Rgt, (-1)]; split; auto; cbn; auto).
      destruct (Bnd k sg m Hk K) as (_&_&p0&N0&(o&a&v&->)&_). eexists. split; [exact N0|]. cbn. lia. }
  assert (Sub : forall c2, (forall m, List.In m c2 -> List.In m (cut ++ ls ++ gs)) -> Forall (fun n => exists p0, nth_error cs0 n = Some p0 /\ match p0 with Cmp _ _ x _ | In x _ _ => (leaf_top x <= S i)%nat | _ => False end) c2).
  { intros c2 H. rewrite Forall_forall in *. intros m Hm. apply CutOk, H, Hm. }
  assert (NotTl : forall hd, (exists q, ls = hd :: q) \/ (exists q, gs = hd :: q) -> ~ List.In hd (cut ++ tl ls ++ tl gs)).
  { intros hd Hh. rewrite !in_app_iff. intros [A|[A|A]].
    - destruct Hh as [(q&->)|(q&->)]; [apply (Bnd Rlt 1 hd); auto; apply Inl; left; reflexivity|apply (Bnd Rgt (-1) hd); auto; apply Ing; left; reflexivity].
    - destruct Hh as [(q&->)|(q&->)]; [inversion NDl; subst; contradiction|]. apply (Dis hd); [apply Mem_l; exact A|left; reflexivity].
    - destruct Hh as [(q&->)|(q&->)]; [|inversion NDg; subst; contradiction]. apply (Dis hd); [left; reflexivity|apply Mem_g; exact A]. }
  (* dropping all but the heads *)
  assert (Drop : forall r, row_fz Z C r -> (live r cs cut <-> live r cs (cut ++ tl ls ++ tl gs))).
  { intros r R. split.
    - intros Lv m p Np NC. apply (Lv m p Np). intros H. apply NC. rewrite in_app_iff. auto.
    - intros Lv m p Np NC. destruct (in_dec Nat.eq_dec m (tl ls)) as [Hm|Hm].
      + destruct ls as [|h q]; [destruct Hm|]. destruct (Bnd Rlt 1 h (Inl h (or_introl eq_refl)) (or_introl (conj eq_refl eq_refl))) as (_&_&ph&_&_&Nph).
        eapply (Rest Rlt 1 (sp_lt s) h q); eauto; [apply Inl; left; reflexivity|].
        exists ph. split; [exact Nph|]. apply (Lv h ph Nph). apply NotTl. left. eauto.
      + destruct (in_dec Nat.eq_dec m (tl gs)) as [Hm2|Hm2].
        * destruct gs as [|h q]; [destruct Hm2|]. destruct (Bnd Rgt (-1) h (Ing h (or_introl eq_refl)) (or_intror (conj eq_refl eq_refl))) as (_&_&ph&_&_&Nph).
          eapply (Rest Rgt (-1) (sp_gt s) h q); eauto; [apply Ing; left; reflexivity|].
          exists ph. split; [exact Nph|]. apply (Lv h ph Nph). apply NotTl. right. eauto.
        * apply (Lv m p Np). rewrite !in_app_iff. tauto. }
  assert (StD : state Z C cs0 (S i) cs (cut ++ tl ls ++ tl gs)).
  { destruct (state_mono _ _ _ _ _ _ St) as (A&B&_). split; [exact A|]. split; [exact B|]. apply Sub. intros m. rewrite !in_app_iff.
    intros [H|[H|H]]; auto. }
  assert (Plain : step_ok Z C cs0 i cs cut (Go cs (cut ++ tl ls ++ tl gs))) by (split; assumption).
  destruct ls as [|l lq]; [injection E as <-; exact Plain|]. destruct gs as [|g gq]; [injection E as <-; exact Plain|].
  destruct (Bnd Rlt 1 l (Inl l (or_introl eq_refl)) (or_introl (conj eq_refl eq_refl))) as (Bl&NCl&pl&Nl0&_&Npl).
  destruct (Bnd Rgt (-1) g (Ing g (or_introl eq_refl)) (or_intror (conj eq_refl eq_refl))) as (Bg&NCg&pg&Ng0&_&Npg).
  destruct (bnd_facts i 1 cs l Bl) as (lo&lv&Ebl&Sl&U&Flv&Nlv). destruct (bnd_facts i (-1) cs g Bg) as (go&gv&Ebg&Sg&_&Fgv&Ngv).
  rewrite Ebl, Ebg in E. destruct (fit_compare (C i) lv gv U Flv Fgv Nlv Ngv) as (c&Ec&Oc). rewrite Ec in E.
  pose proof (T_bnd i 1 cs l lo lv pl Bl Ebl Npl) as Tl. pose proof (T_bnd i (-1) cs g go gv pg Bg Ebg Npg) as Tg.
  assert (Oc' : order (denote gv) (denote lv) = Some (CompOpp (c ?= 0))) by (rewrite (order_antisym (denote lv)), Oc; reflexivity).
  destruct (Z.ltb_spec c 0) as [Lc|Lc].
  - (* x <= lv < gv <= x *)
    injection E as <-. cbn [step_ok]. intros r R Lv.
    assert (T1 : TRUE r pl) by (eapply Lv; eauto). assert (T2 : TRUE r pg) by (eapply Lv; eauto).
    apply (Tl r R) in T1. apply (Tg r R) in T2. apply cmp3_rel in T1, T2. destruct T1 as (c1&O1'&R1), T2 as (c2&O2&R2).
    assert (D : (c ?= 0) = Lt) by (apply Z.compare_lt_iff; exact Lc). rewrite D in Oc.
    assert (O3 : order (denote (r i)) (denote gv) = Some Lt).
    { destruct c1.
      - rewrite (order_eq_l _ _ (denote gv) O1'). exact Oc.
      - eapply order_lt_trans; eauto.
      - destruct lo; cbn in Sl; try contradiction; try discriminate; discriminate. }
    rewrite O3 in O2. injection O2 as <-. destruct go; cbn in Sg; try contradiction; try discriminate; discriminate.
  - destruct (c =? 0) eqn:Ez; [|injection E as <-; exact Plain]. apply Z.eqb_eq in Ez. rewrite Ez in Oc, Oc'. cbn in Oc, Oc'.
    destruct (negb (strict lo) && negb (strict go)) eqn:Str.
    + apply andb_true_iff in Str. destruct Str as (Sl2&Sg2). apply negb_true_iff in Sl2, Sg2.
      assert (lo = CLe) by (destruct lo; cbn in *; try contradiction; try discriminate; reflexivity).
      assert (go = CGe) by (destruct go; cbn in *; try contradiction; try discriminate; reflexivity). subst lo go.
      destruct Bl as (o'&a&v'&Nl&Wl&_). unfold bound in Ebl. rewrite Nl in Ebl. injection Ebl as -> ->. rewrite Nl in E. injection E as <-.
      assert (pl = Cmp CLe a (LSlot i (C i)) lv) as -> by congruence.
      set (pe := Cmp CEq a (LSlot i (C i)) lv).
      assert (We : wt Z C pe).
      { destruct Wl as (t&Ut&Ea&L&F&_). exists t. split; [exact Ut|]. split; [exact Ea|]. split; [exact L|]. split; [exact F|exact Logic.I]. }
      assert (Te : forall r, row_fz Z C r -> (TRUE r pe <-> order (denote (r i)) (denote lv) = Some Eq)).
      { intros r R. destruct Wl as (t&Ut&->&(Et&_)&F&_). subst t. unfold pe.
        rewrite (T_cmp Z C r R (C i) CEq (LSlot i (C i)) lv U (conj eq_refl eq_refl) F).
        destruct (leaf_slot_val Z C r i (C i) R U (conj eq_refl eq_refl)) as (Ev&_). rewrite Ev. split.
        - intros (y&Ey&H). injection Ey as <-. apply cmp3_rel in H. destruct H as (c3&O3&R3). destruct c3; try discriminate. exact O3.
        - intros H. exists (r i). split; [reflexivity|]. apply cmp3_rel. eauto. }
      assert (Both : forall r, row_fz Z C r -> (TRUE r pe <-> TRUE r (Cmp CLe a (LSlot i (C i)) lv) /\ TRUE r pg)).
      { intros r R. rewrite (Te r R), (Tl r R), (Tg r R), !cmp3_rel. split.
        - intros H. split; exists Eq; split; auto. rewrite <- (order_eq_r _ _ _ Oc). exact H.
        - intros ((c1&O3&R3)&(c2&O4&R4)). rewrite <- (order_eq_r _ _ _ Oc) in O4. rewrite O3 in O4. injection O4 as <-.
          rewrite O3. destruct c1; try discriminate. reflexivity. }
      cbn [tl] in *. set (cut' := cut ++ lq ++ gq) in *. cbn [step_ok].
      assert (Dlg : l <> g) by (intros ->; apply (Dis g); left; reflexivity).
      assert (NCl' : ~ List.In l cut') by (apply NotTl; left; eauto).
      assert (NCg' : ~ List.In g cut') by (apply NotTl; right; eauto).
      split.
      * destruct StD as (A&B&_). split; [|split].
        -- eapply F2_set; [exact A|exact Nl0|]. unfold pe. cbn. right. split; lia.
        -- apply F_set; assumption.
        -- apply Sub. intros m. unfold cut'. rewrite !in_app_iff. cbn [List.In]. intros [[H|[H|H]]|[<-|[]]]; auto.
      * intros r R. rewrite (Drop r R). split.
        -- intros Lv m p Np NC. rewrite in_app_iff in NC. destruct (Nat.eq_dec l m) as [<-|D].
           ++ rewrite nth_set_same in Np by (eapply nth_some_lt; eauto). injection Np as <-. apply (Both r R). split; eapply Lv; eauto.
           ++ rewrite nth_set_other in Np by exact D. apply (Lv m p Np). tauto.
        -- intros Lv. assert (T0 : TRUE r pe).
           { apply (Lv l pe); [apply nth_set_same; eapply nth_some_lt; eauto|]. rewrite in_app_iff. cbn [List.In]. intros [H|[H|[]]]; [contradiction|congruence]. }
           apply (Both r R) in T0. destruct T0 as (T1&T2). intros m p Np NC. destruct (Nat.eq_dec l m) as [<-|D]; [assert (p = Cmp CLe a (LSlot i (C i)) lv) as -> by congruence; exact T1|].
           destruct (Nat.eq_dec g m) as [<-|D2]; [assert (p = pg) as -> by congruence; exact T2|].
           apply (Lv m p); [rewrite nth_set_other by exact D; exact Np|]. rewrite in_app_iff. cbn [List.In]. intros [H|[H|[]]]; [contradiction|congruence].
    + injection E as <-. cbn [step_ok]. intros r R Lv.
      assert (T1 : TRUE r pl) by (eapply Lv; eauto). assert (T2 : TRUE r pg) by (eapply Lv; eauto).
      apply (Tl r R) in T1. apply (Tg r R) in T2. apply cmp3_rel in T1, T2. destruct T1 as (c1&O1'&R1), T2 as (c2&O2&R2).
      rewrite <- (order_eq_r _ _ _ Oc) in O2. rewrite O1' in O2. injection O2 as <-.
      destruct lo; cbn in Sl; try contradiction; try discriminate; destruct go; cbn in Sg; try contradiction; try discriminate;
        destruct c1; discriminate.
Qed.
End Step.
