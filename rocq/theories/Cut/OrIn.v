(* OR of equalities into IN. *)
From Coq Require Import Permutation Sorted.
From Verif Require Import Common.Bytes Common.KV Expr.Value Expr.Model Expr.Spec Expr.Proofs Expr.RowCompare Cut.Model Cut.Spec Cut.Values Cut.Truth Cut.Collect Cut.EqStep.
Local Open Scope Z_scope.

Lemma cast_type a v w : cast_to a v = Some w -> is_null w = false -> vt w = a.
Proof.
  unfold cast_to. destruct (is_null v) eqn:N; cbn [orb]; [intros E; injection E as <-; congruence|].
  destruct (ptype_eqb (vt v) a) eqn:T; [intros E _; injection E as <-; apply ptype_eqb_true; exact T|].
  intros E Nw. unfold vbool, vdbl, vnum, vstr in E.
  destruct a; cbn in E;
    repeat match type of E with
    | context [match ?b with _ => _ end] => destruct b; try discriminate
    | option_map _ ?o = _ => destruct o; [|discriminate]; cbn in E
    end; try discriminate; injection E as <-; try reflexivity; discriminate.
Qed.
Lemma cast_idem a v w : cast_to a v = Some w -> cast_to a w = Some w.
Proof.
  intros E. destruct (is_null w) eqn:N; [apply cast_null; exact N|]. apply cast_same. eapply cast_type; eauto.
Qed.

(* ---- AND and OR ---- *)
Definition and_go (r : row) := fix go (l : list expr) (hn : bool) : option value :=
  match l with
  | [] => Some (if hn then vnull else vbool true)
  | c :: l' => match eval r c with
               | None => None
               | Some v => if negb (is_null v) && negb (get_bool v) then Some (vbool false) else go l' (hn || is_null v)
               end
  end.
Definition or_go (r : row) := fix go (l : list expr) (hn : bool) : option value :=
  match l with
  | [] => Some (if hn then vnull else vbool false)
  | c :: l' => match eval r c with
               | None => None
               | Some v => if negb (is_null v) && get_bool v then Some (vbool true) else go l' (hn || is_null v)
               end
  end.
Lemma eval_and r l : eval r (EAnd l) = and_go r l false. Proof. reflexivity. Qed.
Lemma eval_or r l : eval r (EOr l) = or_go r l false. Proof. reflexivity. Qed.

Lemma T_and r l : TRUE r (Other (EAnd l)) <-> Forall (fun c => TRUE r (Other c)) l.
Proof.
  assert (G : forall l hn, (exists v, and_go r l hn = Some v /\ is_null v = false /\ get_bool v = true) <-> hn = false /\ Forall (fun c => TRUE r (Other c)) l).
  { induction l0 as [|c q IH]; intros hn; cbn [and_go].
    - split.
      + intros (v&E&N&_). destruct hn; injection E as <-; [discriminate|]. split; [reflexivity|constructor].
      + intros (->&_). exists (vbool true). repeat split.
    - split.
      + intros (v&E&N&G). destruct (eval r c) as [vc|] eqn:Ec; [|discriminate].
        destruct (negb (is_null vc) && negb (get_bool vc)) eqn:F; [injection E as <-; discriminate|].
        assert (H : hn || is_null vc = false /\ Forall (fun c => TRUE r (Other c)) q) by (apply IH; eauto).
        destruct H as (H&Fq). apply orb_false_iff in H. destruct H as (->&Nc). rewrite Nc in F. cbn in F. apply negb_false_iff in F.
        split; [reflexivity|]. constructor; [|exact Fq]. exists vc. auto.
      + intros (->&F). inversion F as [|? ? (vc&Ec&Nc&Gc) Fq]; subst. cbn [peval] in Ec. rewrite Ec, Nc, Gc. cbn. apply IH. auto. }
  unfold TRUE at 1. cbn [peval]. rewrite eval_and. rewrite G. tauto.
Qed.
Lemma D_and r l : (forall c, List.In c l -> exists v, eval r c = Some v) -> exists v, eval r (EAnd l) = Some v.
Proof.
  intros D. rewrite eval_and. generalize false. induction l as [|c q IH]; intros hn; cbn [and_go]; [eauto|].
  destruct (D c (or_introl eq_refl)) as (v&->). destruct (_ && _); [eauto|]. apply IH. intros c' H. apply D. right. exact H.
Qed.
Lemma T_or r l : (forall c, List.In c l -> exists v, eval r c = Some v) ->
  (TRUE r (Other (EOr l)) <-> exists c, List.In c l /\ TRUE r (Other c)).
Proof.
  intros D. unfold TRUE at 1. cbn [peval]. rewrite eval_or.
  assert (G : forall hn, (exists v, or_go r l hn = Some v /\ is_null v = false /\ get_bool v = true) <-> exists c, List.In c l /\ TRUE r (Other c)); [|apply G].
  induction l as [|c q IH]; intros hn; cbn [or_go].
  - split.
    + intros (v&E&N&G). destruct hn; injection E as <-; discriminate.
    + intros (c&[]&_).
  - destruct (D c (or_introl eq_refl)) as (v&Ev). rewrite Ev.
    assert (Tc : TRUE r (Other c) <-> negb (is_null v) && get_bool v = true).
    { unfold TRUE. cbn [peval]. rewrite Ev, andb_true_iff, negb_true_iff. split; [intros (w&E&A); injection E as <-; exact A|intros A; exists v; auto]. }
    destruct (negb (is_null v) && get_bool v) eqn:B.
    + split; [intros _; exists c; split; [left; reflexivity|apply Tc; reflexivity]|]. intros _. exists (vbool true). repeat split.
    + rewrite IH by (intros c' H; apply D; right; exact H). split.
      * intros (c'&H&T). exists c'. split; [right; exact H|exact T].
      * intros (c'&[<-|H]&T); [apply Tc in T; discriminate|eauto].
Qed.

Section Row.
Variable Z : value -> Prop.
Variable C : nat -> ptype.

(* ---- one equality ---- *)
Lemma eq_of_ok e i t w r : eq_of e = Some (i, t, w) -> eq_ok Z C (i, t, w) -> row_fz Z C r ->
  (exists v, eval r e = Some v) /\ (TRUE r (Other e) <-> eqv2 (r i) w) /\ fz Z t w /\ vt w = arg t.
Proof.
  intros E (U&EC&W&N&Hz) R. destruct e as [| | | | | | | |o a b|]; try discriminate. cbn in E.
  destruct o; try discriminate. destruct a as [j u| | | | | | | | |]; try discriminate. destruct b as [|v| | | | | | | |]; try discriminate.
  destruct (to_arg (diff_type u u) v) as [w'|] eqn:Ea; [|discriminate]. injection E as <- <- <-.
  unfold to_arg in Ea. destruct (_ && _); [discriminate|].
  pose proof (cast_type _ _ _ Ea N) as T. change (diff_type u u) with (arg u) in *.
  assert (F : fz Z u w') by (split; [split; auto|exact Hz]).
  assert (P : eval r (ECmp CEq (ESlot j u) (ELit v)) = peval r (Cmp CEq (arg u) (LSlot j u) w')).
  { cbn [eval peval leaf_val cmp_arg_type]. change (diff_type u u) with (arg u). destruct (cast_to u (r j)); [|reflexivity].
    unfold cmp_value. rewrite Ea, (cast_idem _ _ _ Ea). reflexivity. }
  assert (L : leaf_fz Z C u (LSlot j u)) by (split; auto).
  split; [rewrite P; apply (D_cmp Z C r R u CEq (LSlot j u) w' U L F)|]. split; [|auto].
  assert (S0 : TRUE r (Other (ECmp CEq (ESlot j u) (ELit v))) <-> TRUE r (Cmp CEq (arg u) (LSlot j u) w')).
  { unfold TRUE. cbn [peval] in *. rewrite P. reflexivity. }
  rewrite S0, (T_cmp Z C r R u CEq (LSlot j u) w' U L F). destruct (leaf_slot_val Z C r j u R U L) as (Ev&_). rewrite Ev.
  unfold eqv2, cmp3. split.
  - intros (y&Ey&H). injection Ey as <-. destruct (order _ _) as [[]|]; try discriminate. reflexivity.
  - intros H. exists (r j). split; [reflexivity|]. rewrite H. reflexivity.
Qed.

Lemma eqs_of_F2 l : forall xs, eqs_of l = Some xs -> Forall2 (fun e x => eq_of e = Some x) l xs.
Proof.
  induction l as [|e l IH]; intros xs E; cbn in E; [injection E as <-; constructor|].
  destruct (eq_of e) eqn:Ee; [|discriminate]. destruct (eqs_of l); [|discriminate]. injection E as <-. constructor; auto.
Qed.

Definition meq (r : row) (x : nat * ptype * value) : Prop := eqv2 (r (eslot x)) (snd x).

Lemma eqs_true l xs r : eqs_of l = Some xs -> Forall (eq_ok Z C) xs -> row_fz Z C r ->
  (forall c, List.In c l -> exists v, eval r c = Some v) /\
  (Forall (fun c => TRUE r (Other c)) l <-> Forall (meq r) xs) /\
  ((exists c, List.In c l /\ TRUE r (Other c)) <-> exists x, List.In x xs /\ meq r x).
Proof.
  intros E F R. apply eqs_of_F2 in E. induction E as [|e x l xs He _ IH].
  - split; [intros c []|]. split; [split; constructor|]. split; intros (c&[]&_).
  - inversion F as [|? ? Fx Fs]; subst. destruct (IH Fs) as (A&B&D). destruct x as [[i t] w].
    destruct (eq_of_ok e i t w r He Fx R) as (De&Te&_). split; [intros c [<-|H]; auto|]. split.
    + split; intros G; inversion G; subst; constructor; try (apply B; assumption); apply Te; assumption.
    + split.
      * intros (c&[<-|H]&T); [exists (i, t, w); split; [left; reflexivity|apply Te; exact T]|].
        destruct (proj1 D (ex_intro _ c (conj H T))) as (x&Hx&M). exists x. split; [right; exact Hx|exact M].
      * intros (x&[<-|H]&T); [exists e; split; [left; reflexivity|apply Te; exact T]|].
        destruct (proj2 D (ex_intro _ x (conj H T))) as (c&Hc&M). exists c. split; [right; exact Hc|exact M].
Qed.

(* ---- masks ---- *)
Lemma mask_bits l : forall m, mask l = Some m -> forall s, Z.testbit m (Z.of_nat s) = true <-> List.In s (map eslot l).
Proof.
  induction l as [|x l IH]; intros m E s; cbn [mask] in E.
  - injection E as <-. rewrite Z.testbit_0_l. split; [discriminate|intros []].
  - destruct (63 <? eslot x)%nat; [discriminate|]. destruct (mask l) as [m'|]; [|discriminate]. injection E as <-.
    rewrite Z.lor_spec, orb_true_iff, (IH m' eq_refl s). rewrite Z.shiftl_spec by lia.
    cbn [map List.In]. assert (Z.testbit 1 (Z.of_nat s - Z.of_nat (eslot x)) = true <-> eslot x = s); [|tauto].
    destruct (Nat.eq_dec (eslot x) s) as [->|D].
    + rewrite Z.sub_diag. cbn. tauto.
    + destruct (Z.of_nat s - Z.of_nat (eslot x)) as [|p|p] eqn:Ed; [lia| |]; cbn; split; try discriminate; try contradiction.
Qed.
Lemma same_masks_in m l : same_masks m l = true -> forall x, List.In x l -> mask x = Some m.
Proof.
  induction l as [|y l IH]; cbn; intros E x; [intros []|]. apply andb_true_iff in E. destruct E as (A&B).
  intros [<-|H]; [|auto]. destruct (mask y); [|discriminate]. apply Z.eqb_eq in A. congruence.
Qed.

(* ---- sorting by column ---- *)
Lemma by_slot_perm x l : Permutation (x :: l) (by_slot x l).
Proof.
  induction l as [|y l IH]; cbn; [apply Permutation_refl|]. destruct (_ <=? _)%nat; [apply Permutation_refl|].
  eapply perm_trans; [apply perm_swap|]. constructor. exact IH.
Qed.
Lemma sort_perm l : Permutation l (sort_pairs l).
Proof.
  unfold sort_pairs. induction l as [|x l IH]; cbn; [constructor|]. eapply perm_trans; [|apply by_slot_perm]. constructor. exact IH.
Qed.
Definition sle (a b : nat * ptype * value) : Prop := (eslot a <= eslot b)%nat.
Lemma by_slot_sorted x l : StronglySorted sle l -> StronglySorted sle (by_slot x l).
Proof.
  induction 1 as [|y l Sl IH F]; cbn; [repeat constructor|]. destruct (Nat.leb_spec (eslot x) (eslot y)) as [L|L].
  - constructor; [constructor; assumption|]. constructor; [exact L|]. eapply Forall_impl; [|exact F]. unfold sle. intros; lia.
  - constructor; [exact IH|]. rewrite Forall_forall in *. intros z Hz. apply (Permutation_in z (Permutation_sym (by_slot_perm x l))) in Hz.
    destruct Hz as [<-|Hz]; [unfold sle; lia|auto].
Qed.
Lemma sort_sorted l : StronglySorted sle (sort_pairs l).
Proof. unfold sort_pairs. induction l; cbn; [constructor|]. apply by_slot_sorted. assumption. Qed.

Lemma sorted_slots l : StronglySorted sle l -> NoDup (map eslot l) -> StronglySorted lt (map eslot l).
Proof.
  induction 1 as [|x l Sl IH F]; cbn; intros N; [constructor|]. inversion N as [|? ? Nx Nl]; subst. constructor; [auto|].
  rewrite Forall_forall in *. intros s Hs. pose proof Hs as Hs2. apply in_map_iff in Hs. destruct Hs as (y&<-&Hy). specialize (F y Hy). unfold sle in F.
  assert (eslot x <> eslot y) by (intros E; apply Nx; rewrite E; exact Hs2). lia.
Qed.
Lemma strict_same (a : list nat) : forall b, StronglySorted lt a -> StronglySorted lt b -> (forall x, List.In x a <-> List.In x b) -> a = b.
Proof.
  induction a as [|x a IH]; intros [|y b] Sa Sb H; [reflexivity|exfalso; apply (H y); left; reflexivity|exfalso; apply (H x); left; reflexivity|].
  inversion Sa as [|? ? Sa' Fa]; subst. inversion Sb as [|? ? Sb' Fb]; subst. rewrite Forall_forall in Fa, Fb.
  assert (x = y).
  { destruct (proj1 (H x) (or_introl eq_refl)) as [E|Hx]; [auto|]. destruct (proj2 (H y) (or_introl eq_refl)) as [E|Hy]; [auto|].
    specialize (Fa y Hy). specialize (Fb x Hx). lia. }
  subst y. f_equal. apply IH; auto. intros z. split; intros Hz.
  - destruct (proj1 (H z) (or_intror Hz)) as [E|Hb]; [|exact Hb]. subst z. specialize (Fa x Hz). lia.
  - destruct (proj2 (H z) (or_intror Hz)) as [E|Hb]; [|exact Hb]. subst z. specialize (Fb x Hz). lia.
Qed.

Definition eqd (x : nat * ptype * value) : Prop := eq_ok Z C x /\ snd (fst x) <> PDouble.

(* ANDs over the same columns give rows over the same operands *)
Lemma same_leaves m a b : mask a = Some m -> mask b = Some m -> NoDup (map eslot a) -> NoDup (map eslot b) ->
  Forall eqd a -> Forall eqd b -> map eleaf (sort_pairs a) = map eleaf (sort_pairs b).
Proof.
  intros Ma Mb Na Nb Fa Fb.
  assert (Pa : Permutation (map eslot a) (map eslot (sort_pairs a))) by (apply Permutation_map, sort_perm).
  assert (Pb : Permutation (map eslot b) (map eslot (sort_pairs b))) by (apply Permutation_map, sort_perm).
  assert (E : map eslot (sort_pairs a) = map eslot (sort_pairs b)).
  { apply strict_same.
    - apply sorted_slots; [apply sort_sorted|]. eapply Permutation_NoDup; eauto.
    - apply sorted_slots; [apply sort_sorted|]. eapply Permutation_NoDup; eauto.
    - intros s. split; intros H.
      + apply (Permutation_in s Pb). apply (mask_bits b m Mb). apply (mask_bits a m Ma). apply (Permutation_in s (Permutation_sym Pa)). exact H.
      + apply (Permutation_in s Pa). apply (mask_bits a m Ma). apply (mask_bits b m Mb). apply (Permutation_in s (Permutation_sym Pb)). exact H. }
  assert (G : forall l, Forall eqd l -> map eleaf l = map (fun s => LSlot s (C s)) (map eslot l)).
  { clear. induction l as [|[[i t] w] l IH]; intros F; cbn; [reflexivity|]. inversion F as [|? ? Fx Fl]; subst. destruct Fx as ((U&EC&_)&_).
    f_equal; [|apply IH; exact Fl]. unfold eleaf, eslot. cbn [fst snd]. rewrite EC. reflexivity. }
  assert (Sa : Forall eqd (sort_pairs a)) by (rewrite Forall_forall in *; intros x Hx; apply Fa, (Permutation_in x (Permutation_sym (sort_perm a))), Hx).
  assert (Sb : Forall eqd (sort_pairs b)) by (rewrite Forall_forall in *; intros x Hx; apply Fb, (Permutation_in x (Permutation_sym (sort_perm b))), Hx).
  rewrite (G _ Sa), (G _ Sb), E. reflexivity.
Qed.

Lemma slots_leaves l : slots (map eleaf l) = map eslot l.
Proof. induction l as [|x l IH]; cbn; [reflexivity|]. rewrite IH. reflexivity. Qed.

Lemma eq_ok_leaf x : eq_ok Z C x -> leaf_fz Z C (snd (fst x)) (eleaf x).
Proof. destruct x as [[i t] w]. intros (U&EC&_). cbn. auto. Qed.

Lemma ands_in l : forall rs, ands_of l = Some rs -> Forall2 (fun e xs => exists q, e = EAnd q /\ eqs_of q = Some xs) l rs.
Proof.
  induction l as [|e l IH]; intros rs E; cbn [ands_of] in E; [injection E as <-; constructor|].
  destruct e; try discriminate. destruct (63 <? length l0)%nat; [discriminate|]. destruct l0 as [|e0 q0] eqn:El; [discriminate|].
  rewrite <- El in *. destruct (eqs_of l0) as [xs|] eqn:Ex; [|discriminate]. destruct (ands_of l) as [rs'|]; [|discriminate].
  injection E as <-. constructor; [exists l0; auto|]. apply IH. reflexivity.
Qed.

(* the constants of one equality fit their column: they were converted to the argument type *)
Definition typed (x : nat * ptype * value) : Prop := vt (snd x) = arg (snd (fst x)).
Lemma eq_of_typed e x : eq_of e = Some x -> is_null (snd x) = false -> typed x.
Proof.
  intros E N. destruct e as [| | | | | | | |o a b|]; try discriminate. cbn in E.
  destruct o; try discriminate. destruct a as [j u| | | | | | | | |]; try discriminate. destruct b as [|v| | | | | | | |]; try discriminate.
  destruct (to_arg (diff_type u u) v) as [w'|] eqn:Ea; [|discriminate]. injection E as <-.
  unfold to_arg in Ea. destruct (_ && _); [discriminate|]. unfold typed. cbn in *. eapply cast_type; eauto.
Qed.
Lemma eqs_typed l xs : eqs_of l = Some xs -> Forall (eq_ok Z C) xs -> Forall typed xs.
Proof.
  intros E. apply eqs_of_F2 in E. induction E as [|e x l xs He _ IH]; intros F; inversion F as [|? ? Fx Fs]; subst; constructor; auto.
  eapply eq_of_typed; eauto. destruct x as [[i t] w]. apply Fx.
Qed.
Lemma eelem_ok x : eq_ok Z C x -> typed x -> elem_fz Z (snd (fst x)) (eelem x).
Proof.
  destruct x as [[i t] w]. intros (U&EC&W&N&Hz) T. unfold typed in T. cbn in T. split; [|split; [exact Hz|intros _; exact N]].
  split; [right; exact T|]. split; [exact W|]. right. right. exact T.
Qed.

Lemma or_ok_true p : or_ok Z C p -> wt Z C p ->
  wt Z C (or_optimize p) /\ forall r, row_fz Z C r -> (TRUE r p <-> TRUE r (or_optimize p)).
Proof.
  intros O1 W. destruct p as [| | | |e]; try (split; [exact W|reflexivity]).
  destruct e as [| | |l| | | | | |]; try (split; [exact W|reflexivity]).
  cbn [or_optimize]. destruct (or_to_in l) as [p|] eqn:E; [|split; [exact W|reflexivity]].
  destruct O1 as (O1&O2). unfold or_to_in in E. destruct l as [|e0 l0] eqn:El; [discriminate|]. rewrite <- El in *.
  destruct e0; try discriminate.
  - (* ANDs *)
    destruct (ands_of l) as [rs|] eqn:Ea; [|discriminate]. destruct (O2 rs eq_refl) as (Frs&ZZ). clear O1 O2.
    destruct rs as [|r0 rq] eqn:Er; [discriminate|]. rewrite <- Er in *.
    destruct (mask r0) as [m|] eqn:Em; [|discriminate]. destruct (same_masks m rs) eqn:Es; [|discriminate]. injection E as <-.
    pose proof (ands_in l rs Ea) as Fl.
    assert (Ty : Forall (fun xs => Forall typed xs) rs).
    { clear - Fl Frs. induction Fl as [|e xs l rs (q&->&Eq) _ IH]; inversion Frs as [|? ? (Fx&_) Fs]; subst; constructor; auto.
      eapply eqs_typed; eauto. eapply Forall_impl; [|exact Fx]. intros x (H&_). exact H. }
    rewrite Forall_forall in Frs, Ty.
    assert (R0 : List.In r0 rs) by (rewrite Er; left; reflexivity).
    destruct (Frs r0 R0) as (F0&N0).
    set (ts := map (fun x : nat * ptype * value => snd (fst x)) (sort_pairs r0)).
    set (xs := map eleaf (sort_pairs r0)).
    assert (Srt : forall (Q : nat * ptype * value -> Prop) x, Forall Q x -> Forall Q (sort_pairs x)).
    { intros Q x F. rewrite Forall_forall in *. intros y Hy. apply F, (Permutation_in y (Permutation_sym (sort_perm x))), Hy. }
    assert (Same : forall x, List.In x rs -> map eleaf (sort_pairs x) = xs).
    { intros x Hx. destruct (Frs x Hx) as (Fx&Nx). apply (same_leaves m); auto. apply (same_masks_in m rs Es x Hx). }
    assert (Tys : forall x, List.In x rs -> map (fun x : nat * ptype * value => snd (fst x)) (sort_pairs x) = ts).
    { intros x Hx. specialize (Same x Hx). unfold ts. unfold xs in Same.
      assert (G : forall l, map (fun x : nat * ptype * value => snd (fst x)) l = map (fun x => match x with LSlot _ t => t | LVal v => vt v end) (map eleaf l)).
      { clear. induction l; cbn; [reflexivity|]. f_equal. assumption. }
      rewrite !G, Same. reflexivity. }
    assert (U : Forall (fun t => usable t /\ t <> PDouble) ts).
    { unfold ts. rewrite Forall_forall. intros t Ht. apply in_map_iff in Ht. destruct Ht as (x&<-&Hx).
      pose proof (Srt _ _ F0) as F1. rewrite Forall_forall in F1. destruct (F1 x Hx) as (Ex&Nd). split; [|exact Nd]. destruct x as [[i t] w]. apply Ex. }
    assert (L : Forall2 (leaf_fz Z C) ts xs).
    { unfold ts, xs. pose proof (Srt _ _ F0) as F1. clear - F1. induction F1 as [|x l (Hx&_) _ IH]; cbn; constructor; auto. apply eq_ok_leaf. exact Hx. }
    assert (NDs : NoDup (slots xs)).
    { unfold xs. rewrite slots_leaves. eapply Permutation_NoDup; [|exact N0]. apply Permutation_map, sort_perm. }
    set (rows := map (fun x => map eelem (sort_pairs x)) rs).
    assert (G : Forall (fun l => Forall2 (elem_fz Z) ts l) rows).
    { unfold rows. rewrite Forall_forall. intros g Hg. apply in_map_iff in Hg. destruct Hg as (x&<-&Hx).
      destruct (Frs x Hx) as (Fx&_). rewrite <- (Tys x Hx). pose proof (Srt _ _ Fx) as F1. pose proof (Srt _ _ (Ty x Hx)) as F2.
      clear - F1 F2. induction F1 as [|y l (Hy&_) _ IH]; cbn; constructor; inversion F2; subst; auto. apply eelem_ok; assumption. }
    split.
    { exists ts. do 3 (split; [assumption|]). split; [unfold rows; rewrite Er; discriminate|]. split; assumption. }
    intros r R. rewrite (T_rowin Z C r R ZZ ts xs rows false U L G).
    (* values of the operands *)
    assert (Val : forall x, List.In x rs -> leaf_vals r xs = Some (map (fun y => r (eslot y)) (sort_pairs x))).
    { intros x Hx. rewrite <- (Same x Hx). destruct (Frs x Hx) as (Fx&_). pose proof (Srt _ _ Fx) as F1. clear - F1 R.
      induction F1 as [|[[i t] w] l ((Ut&EC&_)&_) _ IH]; [reflexivity|]. cbn [map leaf_vals].
      destruct (leaf_slot_val Z C r i t R Ut (conj eq_refl EC)) as (Ev&_). unfold eleaf at 1, eslot at 1. cbn [fst snd]. rewrite Ev, IH. reflexivity. }
    assert (Row : forall x, Forall2 (fun v (e : elem) => eqv2 v (snd e)) (map (fun y => r (eslot y)) (sort_pairs x)) (map eelem (sort_pairs x)) <-> Forall (meq r) x).
    { intros x. assert (Forall (meq r) x <-> Forall (meq r) (sort_pairs x)) as ->.
      { rewrite !Forall_forall. split; intros H y Hy; apply H; [apply (Permutation_in y (Permutation_sym (sort_perm x)))|apply (Permutation_in y (sort_perm x))]; exact Hy. }
      induction (sort_pairs x) as [|y q IH]; cbn [map]; [split; constructor|]. split; intros H; inversion H; subst; constructor; auto; apply IH; assumption. }
    assert (Ext : (exists l g, leaf_vals r xs = Some l /\ List.In g rows /\ Forall2 (fun x (e : elem) => eqv2 x (snd e)) l g) <-> exists x, List.In x rs /\ Forall (meq r) x).
    { split.
      - intros (lv&g&Elv&Hg&Q). apply in_map_iff in Hg. destruct Hg as (x&<-&Hx). exists x. split; [exact Hx|]. apply Row.
        rewrite (Val x Hx) in Elv. injection Elv as <-. exact Q.
      - intros (x&Hx&F). eexists. exists (map eelem (sort_pairs x)). split; [apply (Val x Hx)|]. split; [apply in_map_iff; eauto|]. apply Row. exact F. }
    rewrite Ext.
    assert (Fr2 : forall x, List.In x rs -> Forall (eq_ok Z C) x).
    { intros x Hx. destruct (Frs x Hx) as (Fx&_). eapply Forall_impl; [|exact Fx]. intros y (H&_). exact H. }
    assert (H : (forall c, List.In c l -> exists v, eval r c = Some v) /\ ((exists c, List.In c l /\ TRUE r (Other c)) <-> exists x, List.In x rs /\ Forall (meq r) x)).
    { clear - Fl Fr2 R. induction Fl as [|e xs l rs (q&->&Eq) _ IH].
      - split; [intros c []|]. split; intros (c&[]&_).
      - destruct IH as (A&B); [intros x Hx; apply Fr2; right; exact Hx|].
        destruct (eqs_true q xs r Eq (Fr2 xs (or_introl eq_refl)) R) as (Dq&Tq&_). split.
        + intros c [<-|Hc]; [apply D_and; exact Dq|auto].
        + split.
          * intros (c&[<-|Hc]&T); [exists xs; split; [left; reflexivity|]; apply Tq, T_and, T|].
            destruct (proj1 B (ex_intro _ c (conj Hc T))) as (x&Hx&M). exists x. split; [right; exact Hx|exact M].
          * intros (x&[<-|Hx]&M); [exists (EAnd q); split; [left; reflexivity|]; apply T_and, Tq, M|].
            destruct (proj2 B (ex_intro _ x (conj Hx M))) as (c&Hc&T). exists c. split; [right; exact Hc|exact T]. }
    destruct H as (Dl&Tl). rewrite (T_or r l Dl). exact Tl.
  - (* equalities *)
    destruct (eqs_of l) as [xs|] eqn:Ex; [|discriminate]. specialize (O1 xs eq_refl). clear O2.
    destruct xs as [|x0 xq] eqn:Exs; [discriminate|]. rewrite <- Exs in *.
    destruct (mask [x0]) as [m|] eqn:Em; [|discriminate]. destruct (same_masks m (map (fun x => [x]) xs)) eqn:Es; [|discriminate]. injection E as <-.
    pose proof (eqs_typed l xs Ex O1) as Ty. rewrite Forall_forall in O1, Ty.
    assert (Sl : forall x, List.In x xs -> eslot x = eslot x0).
    { intros x Hx. assert (Mx : mask [x] = Some m) by (apply (same_masks_in m _ Es); apply in_map_iff; exists x; auto).
      assert (H : List.In (eslot x) (map eslot [x])) by (left; reflexivity). apply (mask_bits [x] m Mx) in H. apply (mask_bits [x0] m Em) in H.
      destruct H as [H|[]]. auto. }
    assert (X0 : List.In x0 xs) by (rewrite Exs; left; reflexivity).
    pose proof (O1 x0 X0) as E0. destruct x0 as [[i t] w0]. pose proof E0 as (U&EC&_). 
    assert (TT : forall x, List.In x xs -> snd (fst x) = t).
    { intros x Hx. specialize (O1 x Hx). specialize (Sl x Hx). destruct x as [[i' t'] w']. cbn in *. subst i'. destruct O1 as (_&EC'&_). congruence. }
    assert (F : Forall (elem_fz Z t) (map eelem xs)).
    { rewrite Forall_forall. intros e He. apply in_map_iff in He. destruct He as (x&<-&Hx). rewrite <- (TT x Hx). apply eelem_ok; auto. }
    assert (L : leaf_fz Z C t (LSlot i t)) by (split; auto).
    change (eleaf (i, t, w0)) with (LSlot i t). split.
    { exists t. split; [exact U|]. split; [exact L|]. split; [rewrite Exs; discriminate|exact F]. }
    intros r R. rewrite (T_in Z C r R t (LSlot i t) _ false U L F). destruct (leaf_slot_val Z C r i t R U L) as (Ev&_). rewrite Ev.
    assert (O1' : Forall (eq_ok Z C) xs) by (rewrite Forall_forall; exact O1).
    destruct (eqs_true l xs r Ex O1' R) as (Dl&_&Tl). rewrite (T_or r l Dl), Tl. split.
    + intros (x&Hx&M). exists (r i), (eelem x). split; [reflexivity|]. split; [apply in_map; exact Hx|]. unfold meq in M. rewrite (Sl x Hx) in M. exact M.
    + intros (y&e&Ey&He&Q). injection Ey as <-. apply in_map_iff in He. destruct He as (x&<-&Hx). exists x. split; [exact Hx|].
      unfold meq. rewrite (Sl x Hx). exact Q.
Qed.
End Row.
