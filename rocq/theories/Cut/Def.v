(* The rewrite is defined for conditions on single columns. *)
From Coq Require Import Permutation.
From Verif Require Import Common.Bytes Common.KV Expr.Value Expr.Model Expr.Spec Expr.Proofs Expr.RowCompare Cut.Model Cut.Spec Cut.Values Cut.Truth Cut.Collect Cut.EqStep Cut.InStep Cut.RangeStep Cut.OrIn Cut.Proofs.
Local Open Scope Z_scope.

(* ---- type inference keeps the value ---- *)
Lemma infer_in t l : forall vs ws, lits l = Some vs -> to_elems t vs = Some ws -> forall x m, (exists i, x = ESlot i t) ->
  in_set x m vs = elem_set m ws /\ existsb has_null l = existsb is_null vs.
Proof.
  induction l as [|e l IH]; intros vs ws El Ew x m Hx; cbn [lits] in El.
  - injection El as <-. injection Ew as <-. split; reflexivity.
  - destruct e; try discriminate. destruct (lits l) as [vs'|]; [|discriminate]. cbn in El. injection El as <-.
    cbn [to_elems] in Ew. destruct (cast_to t v) as [w|] eqn:Ec; [|discriminate]. destruct (to_elems t vs') as [ws'|] eqn:Et; [|discriminate].
    injection Ew as <-. destruct (IH vs' ws' eq_refl Et x m Hx) as (A&B). cbn [in_set elem_set existsb has_null]. split; [|rewrite B; reflexivity].
    rewrite A. destruct Hx as (i&->). cbn [in_elem]. rewrite Ec. destruct (elem_set m ws') as [s|]; [|reflexivity].
    destruct (is_null w); [reflexivity|]. destruct (cast_to m w); reflexivity.
Qed.
Lemma to_elems_head t v vs ws : to_elems t (v :: vs) = Some ws -> exists w q, ws = (t, w) :: q.
Proof. cbn. destruct (cast_to t v); [|discriminate]. destruct (to_elems t vs); [|discriminate]. intros E. injection E as <-. eauto. Qed.

Lemma infer_eval e p : infer e = Some p -> forall r, peval r p = eval r e.
Proof.
  destruct e as [| | | | | | | |o a b|x l]; cbn [infer]; intros E r; try (injection E as <-; reflexivity).
  - destruct a as [i t| | | | | | | | |]; try (injection E as <-; reflexivity).
    destruct b as [|v| | | | | | | |]; try (injection E as <-; reflexivity).
    destruct (to_arg (diff_type t t) v) as [w|] eqn:Ea; [|discriminate]. injection E as <-.
    unfold to_arg in Ea. destruct (_ && _); [discriminate|].
    cbn [eval peval leaf_val cmp_arg_type]. destruct (cast_to t (r i)); [|reflexivity].
    unfold cmp_value. rewrite Ea, (cast_idem _ _ _ Ea). reflexivity.
  - destruct x as [i t| | | | | | | | |]; try (injection E as <-; reflexivity).
    destruct (lits l) as [vs|] eqn:El; [|discriminate]. destruct (to_elems t vs) as [ws|] eqn:Ew; [|discriminate]. injection E as <-.
    destruct (infer_in t l vs ws El Ew (ESlot i t) (in_map_type t t) (ex_intro _ i eq_refl)) as (A&B).
    cbn [eval has_null orb]. rewrite El, B. destruct vs as [|v q]; [injection Ew as <-; reflexivity|].
    destruct (to_elems_head t v q ws Ew) as (w&q'&Eh). rewrite (peval_in r (LSlot i t) ws _ t w q' Eh). cbn [leaf_ty leaf_val in_type].
    rewrite A. destruct (elem_set _ ws); destruct (cast_to t (r i)); reflexivity.
Qed.

Fixpoint infers (es : list expr) : option (list pred) :=
  match es with
  | [] => Some []
  | e :: q => let* p := infer e in let* ps := infers q in Some (p :: ps)
  end.
Lemma infers_keeps es : forall ps, infers es = Some ps -> forall r, keeps ps r = need_copy es r.
Proof.
  induction es as [|e es IH]; intros ps E r; cbn [infers] in E; [injection E as <-; reflexivity|].
  destruct (infer e) as [p|] eqn:Ee; [|discriminate]. destruct (infers es) as [ps'|]; [|discriminate]. injection E as <-.
  cbn [keeps need_copy]. rewrite (infer_eval e p Ee r), (IH ps' eq_refl r). reflexivity.
Qed.

(* ---- definedness ---- *)
Section Def.
Variable Z : value -> Prop.
Variable C : nat -> ptype.
Hypothesis Z0 : Z vnull.

Lemma null_row : row_fz Z C (fun _ => vnull).
Proof. intros i U. split; [|exact Z0]. split; [cbn; auto|]. split; [apply U|left; reflexivity]. Qed.

Lemma peval_def p r : wt Z C p -> plain p -> (forall e, p <> Other e) -> row_fz Z C r -> exists v, peval r p = Some v.
Proof.
  intros W Pl NO R. destruct p as [o a x v|x l hn|o xs vs|xs rows hn|e]; try contradiction.
  - destruct W as (t&U&->&L&F&_). apply (D_cmp Z C r R t o x v U L F).
  - destruct W as (t&U&L&NE&F). apply (D_in Z C r R t x l hn U L F NE).
  - exfalso. apply (NO e). reflexivity.
Qed.

Lemma finish_def cs cut : Forall (wt Z C) cs -> Forall plain cs -> forall n, exists res, finish n cs cut = Some res.
Proof.
  induction cs as [|p q IH]; intros W P n; cbn [finish]; [eauto|]. inversion W; inversion P; subst.
  destruct (IH ltac:(assumption) ltac:(assumption) (S n)) as (res&Er).
  destruct (existsb _ cut); [eauto|]. destruct (const_pred p) eqn:Ec.
  - assert (exists v, peval (fun _ => vnull) p = Some v) as (v&Ev).
    { destruct p as [| | | |e]; try (apply peval_def; auto using null_row; congruence). cbn [peval]. cbn in H5. apply H5. exact Ec. }
    rewrite Ev. destruct (_ || _); eauto.
  - rewrite Er. eauto.
Qed.

Lemma replace_def i ref w ns : forall cs fr, Forall plain cs -> 
  (forall n, List.In n ns -> exists p, nth_error cs n = Some p /\ forall e, p <> Other e) ->
  exists cs' fr', replace_all i ref w ns (cs, fr) = Some (cs', fr') /\ Forall plain cs'.
Proof.
  induction ns as [|n ns IH]; intros cs fr P H; cbn [replace_all]; [eauto|].
  destruct (H n (or_introl eq_refl)) as (p&Np&NO). pose proof (nth_F _ _ _ _ P Np) as Pp.
  assert (G : forall p', plain p' -> (forall e, p' <> Other e) -> exists cs' fr', replace_all i ref w ns (set_nth n p' cs, fr) = Some (cs', fr') /\ Forall plain cs').
  { intros p' Pp' NO'. apply IH; [apply F_set; assumption|]. intros m Hm. destruct (H m (or_intror Hm)) as (q&Nq&NOq).
    destruct (Nat.eq_dec n m) as [<-|D]; [exists p'; split; [apply nth_set_same; eapply nth_some_lt; eauto|exact NO']|].
    exists q. rewrite nth_set_other by exact D. auto. }
  unfold replace_slot. rewrite Np. destruct p as [o a x v|x l hn|o xs vs|xs rows hn|e]; try contradiction.
  - apply G; [exact Logic.I|discriminate].
  - apply G; [exact Pp|discriminate].
  - exfalso. apply (NO e). reflexivity.
Qed.

Lemma texts_def l : Forall (fun v => exists s, get_string v = Some s) l -> exists ts, texts l = Some ts.
Proof. induction 1 as [|v l (s&E) _ (ts&IH)]; cbn [texts]; [eauto|]. rewrite E, IH. eauto. Qed.
Lemma kget_all (P : list BinNums.Z * value -> Prop) (m : kv value) k v : Forall P m -> kget k m = Some v -> exists k', P (k', v).
Proof.
  induction m as [|[k' v'] m IH]; intros F E; cbn in E; [discriminate|]. inversion F; subst.
  destruct (bcompare k k'); [injection E as <-; eauto|eauto|eauto].
Qed.

Definition vok (i : nat) (e : list BinNums.Z * value) : Prop := fz Z (C i) (snd e).
Definition in_here (i : nat) (cs : list pred) (n : nat) : Prop :=
  exists x l hn, nth_error cs n = Some (In x l hn) /\ plain (In x l hn) /\ Forall (elem_fz Z (C i)) l.

Lemma in_texts i cs n : in_here i cs n -> exists p vs ts, nth_error cs n = Some p /\ in_col i p = Some vs /\ texts vs = Some ts /\ Forall (vok i) ts.
Proof.
  intros (x&l&hn&N&P&F). cbn [plain] in P. exists (In x l hn), (map snd l).
  destruct (texts_def (map snd l)) as (ts&Et). { rewrite Forall_forall in *. intros v Hv. apply in_map_iff in Hv. destruct Hv as (e&<-&He). exact (P e He). }
  exists ts. split; [exact N|]. split; [reflexivity|]. split; [exact Et|]. destruct (texts_in _ _ Et) as (_&B).
  rewrite Forall_forall in *. intros [s v] H. destruct (B s v H) as (_&Hv). apply in_map_iff in Hv. destruct Hv as (e&<-&He).
  destruct (F e He) as ((_&Fe)&Ze&_). split; assumption.
Qed.

Lemma meet_def i cs ns : forall m cut, Forall (vok i) m -> (forall n, List.In n ns -> in_here i cs n) ->
  exists m' cut', meet i cs ns m cut = Some (m', cut') /\ Forall (vok i) m'.
Proof.
  induction ns as [|n ns IH]; intros m cut Fm H; cbn [meet]; [eauto|].
  destruct (in_texts i cs n (H n (or_introl eq_refl))) as (p&vs&ts&Np&Ec&Et&Fts). rewrite Np, Ec, Et.
  apply IH; [|intros k Hk; apply H; right; exact Hk].
  assert (G : forall ts o, Forall (vok i) o -> Forall (vok i) (fold_left (fun o (e : list BinNums.Z * value) => match kget (fst e) m with Some v => kput (fst e) v o | None => o end) ts o)).
  { induction ts0 as [|e ts0 IHt]; intros o Fo; cbn [fold_left]; [exact Fo|]. apply IHt. destruct (kget (fst e) m) as [v|] eqn:Ek; [|exact Fo].
    apply kput_all; [exact Fo|]. destruct (kget_all _ _ _ _ Fm Ek) as (k'&Q). exact Q. }
  apply G. constructor.
Qed.
Lemma hold_def i cs w ns : usable (C i) -> fz Z (C i) w -> (forall n, List.In n ns -> exists sg, bnd Z C i sg cs n) -> exists b, all_hold cs w ns = Some b.
Proof.
  intros U Fw. induction ns as [|n ns IH]; intros H; cbn [all_hold]; [eauto|].
  destruct (H n (or_introl eq_refl)) as (sg&o&a&v&Np&(t&Ut&->&(Et&ECi)&Fv&_)&_). subst t. rewrite Np. cbn [put].
  destruct (D_cmp Z C (fun _ => vnull) null_row (C i) o (LVal w) v U Fw Fv) as (b&Eb). rewrite Eb.
  destruct IH as (b'&Eb'); [intros k Hk; apply H; right; exact Hk|]. rewrite Eb'. eauto.
Qed.
Lemma keep_def i cs ns m : usable (C i) -> Forall (vok i) m -> (forall n, List.In n ns -> exists sg, bnd Z C i sg cs n) -> exists ks, keep_keys cs ns m = Some ks.
Proof.
  intros U F H. induction F as [|[k v] m Fv _ IH]; cbn [keep_keys]; [eauto|].
  destruct (hold_def i cs v ns U Fv H) as (b&Eb). destruct IH as (ks&Ek). rewrite Eb, Ek. eauto.
Qed.

(* sorting *)
Section Sort.
Variable A : Type.
Variable lt : A -> A -> option bool.
Variable P : A -> Prop.
Hypothesis tot : forall a b, P a -> P b -> exists c, lt a b = Some c.
Lemma down_def x back : P x -> Forall P back -> exists l, down A lt x back = Some l.
Proof.
  intros Px. induction 1 as [|y q Py _ (l&IH)]; cbn [down]; [eauto|]. destruct (tot x y Px Py) as ([]&E); rewrite E; [rewrite IH|]; eauto.
Qed.
Lemma insert_def x l : P x -> Forall P l -> exists l', insert A lt x l = Some l'.
Proof.
  intros Px F. unfold insert. destruct F as [|y q Py F]; [eauto|]. destruct (tot x y Px Py) as ([]&E); rewrite E; [eauto|].
  destruct (down_def x (rev (y :: q)) Px) as (b&Eb); [apply Forall_rev; constructor; assumption|]. rewrite Eb. eauto.
Qed.
Lemma insert_P x l l' : P x -> Forall P l -> insert A lt x l = Some l' -> Forall P l'.
Proof.
  intros Px F E. assert (Permutation (x :: l) l').
  { unfold insert in E. destruct l as [|y q]; [injection E as <-; apply Permutation_refl|]. destruct (lt x y) as [[]|]; [|..]; try discriminate.
    - injection E as <-. apply Permutation_refl.
    - destruct (down A lt x (rev (y :: q))) as [b|] eqn:Eb; [|discriminate]. injection E as <-. apply down_perm in Eb.
      eapply perm_trans; [|apply Permutation_rev]. eapply perm_trans; [|exact Eb]. constructor. apply Permutation_rev. }
  rewrite Forall_forall in *. intros z Hz. apply (Permutation_in z (Permutation_sym H)) in Hz. destruct Hz as [<-|Hz]; auto.
Qed.
Lemma isort_def rest : forall done, Forall P done -> Forall P rest -> exists l, isort A lt done rest = Some l.
Proof.
  induction rest as [|x q IH]; intros done Fd Fr; cbn [isort]; [eauto|]. inversion Fr; subst.
  destruct (insert_def x done) as (d&Ed); auto. rewrite Ed. apply IH; [exact (insert_P x done d ltac:(assumption) Fd Ed)|assumption].
Qed.
End Sort.

Lemma sort_def i sg cs ns : Forall (bnd Z C i sg cs) ns -> (length ns <= 16)%nat -> exists ls, sort_bounds sg cs ns = Some ls.
Proof.
  intros F L. unfold sort_bounds.
  assert (exists bs, bounds cs ns = Some bs /\ length bs = length ns /\ Forall (fun e => usable (C i) /\ fit (C i) (snd (snd e)) /\ is_null (snd (snd e)) = false) bs) as (bs&Eb&Lb&Fb).
  { clear L. induction F as [|n ns B _ (bs&IH&Lb&Fb)]; [exists []; repeat split; constructor|].
    destruct (bnd_facts Z C i sg cs n B) as (o&v&E&_&U&Ft&N). exists ((n, (o, v)) :: bs). cbn [bounds]. rewrite E, IH. split; [reflexivity|].
    split; [cbn; congruence|]. constructor; [cbn; auto|exact Fb]. }
  rewrite Eb. unfold sorted. rewrite Lb. apply Nat.leb_le in L. rewrite L. cbn [orb].
  destruct (isort_def (nat * (cmpop * value)) (fun a b => less sg (snd a) (snd b)) (fun e => usable (C i) /\ fit (C i) (snd (snd e)) /\ is_null (snd (snd e)) = false)) with (rest := bs) (done := @nil (nat * (cmpop * value))) as (l&El);
    [|constructor|exact Fb|rewrite El; eauto].
  intros a b (U&Fa&Na) (_&Fb2&Nb). unfold less. destruct (fit_compare (C i) _ _ U Fa Fb2 Na Nb) as (c&Ec&_). rewrite Ec. eauto.
Qed.

Lemma set_plain n p cs : Forall plain cs -> plain p -> Forall plain (set_nth n p cs).
Proof. intros F P. apply F_set; assumption. Qed.
Lemma trim_plain i keep ns : forall cs, Forall plain cs -> Forall plain (trim_all i keep ns cs).
Proof.
  induction ns as [|n ns IH]; intros cs F; cbn [trim_all]; [exact F|]. apply IH. destruct (nth_error cs n) as [p|] eqn:E; [|exact F].
  apply set_plain; [exact F|]. pose proof (nth_F _ _ _ _ F E) as P. destruct p; cbn in *; try contradiction; auto. apply F_filter. exact P.
Qed.

Ltac fin := eexists; split; [reflexivity|first [exact Logic.I|assumption]].
Lemma step_def cs0 i cs cut : Forall rows_once cs0 -> (length cs0 <= 16)%nat -> state Z C cs0 i cs cut -> Forall plain cs ->
  need_cut (collect i 0 cs0 sp0) = true ->
  exists res, predicate_cut i (collect i 0 cs0 sp0) cs cut = Some res /\
    match res with Empty => True | Go cs' _ => Forall plain cs' end.
Proof.
  intros O1 Len St P NC. set (s := collect i 0 cs0 sp0) in *.
  assert (Hall : forall k m, List.In m (lists s k) <-> exists p, nth_error cs0 m = Some p /\ role i p = Some k)
    by (intros; apply collect_in; exact O1).
  assert (Cur : forall k m, List.In m (lists s k) -> exists p, nth_error cs m = Some p /\ wt Z C p /\ plain p /\ current i k p).
  { intros k m Hm. apply Hall in Hm. destruct Hm as (p0&N0&R0). destruct (state_nth _ _ _ _ _ _ _ _ St N0) as (p&Np&Ep&Wp).
    exists p. split; [exact Np|]. split; [exact Wp|]. split; [eapply nth_F; eauto|]. exact (role_current i k p0 p R0 Ep). }
  assert (NOther : forall k m, List.In m (lists s k) -> exists p, nth_error cs m = Some p /\ forall e, p <> Other e).
  { intros k m Hm. destruct (Cur k m Hm) as (p&Np&_&_&Cu). exists p. split; [exact Np|]. intros e ->. exact Cu. }
  assert (Bnd : forall k sg m, List.In m (lists s k) -> (k = Rlt /\ sg = 1 \/ k = Rgt /\ sg = -1) -> bnd Z C i sg cs m).
  { intros k sg m Hm Hk. destruct (Cur k m Hm) as (p&Np&Wp&Pp&Cu). destruct p as [o a x v|x l hn|o xs vs|xs rows hn|e]; cbn [current plain] in *; try contradiction.
    - destruct Cu as (t&->&K). pose proof Wp as (t'&_&_&(Et'&ECi)&_). subst t'. rewrite <- ECi in *.
      exists o, a, v. split; [exact Np|]. split; [exact Wp|]. destruct o; cbn; try contradiction; destruct Hk as [(->&->)|(->&->)]; congruence.
    - destruct Cu as (t&_&->). destruct Hk as [(D&_)|(D&_)]; discriminate. }
  unfold predicate_cut. destruct (sp_eq s) as [|n q] eqn:Eq.
  - destruct (sp_in s) as [|n q] eqn:Ei.
    + unfold cut_range.
      assert (Short : forall k, (length (lists s k) <= 16)%nat).
      { intros k. assert (length (lists s k) <= length (seq 0 (length cs0)))%nat; [|rewrite seq_length in *; lia].
        apply NoDup_incl_length; [apply (collect_nodup i k cs0 O1)|]. intros m Hm. apply Hall in Hm. destruct Hm as (p0&N0&_).
        apply in_seq. apply nth_some_lt in N0. lia. }
      destruct (sort_def i 1 cs (sp_lt s)) as (ls&El). { rewrite Forall_forall. intros m Hm. apply (Bnd Rlt 1 m Hm). auto. } { apply (Short Rlt). }
      destruct (sort_def i (-1) cs (sp_gt s)) as (gs&Eg). { rewrite Forall_forall. intros m Hm. apply (Bnd Rgt (-1) m Hm). auto. } { apply (Short Rgt). }
      rewrite El, Eg.
      assert (Fl : Forall (bnd Z C i 1 cs) (sp_lt s)) by (rewrite Forall_forall; intros m Hm; apply (Bnd Rlt 1 m Hm); auto).
      assert (Fg : Forall (bnd Z C i (-1) cs) (sp_gt s)) by (rewrite Forall_forall; intros m Hm; apply (Bnd Rgt (-1) m Hm); auto).
      destruct (sort_bounds_ok Z C i 1 cs _ ls Fl El) as (Pl&_). destruct (sort_bounds_ok Z C i (-1) cs _ gs Fg Eg) as (Pg&_).
      destruct ls as [|l lq]; [fin|]. destruct gs as [|g gq]; [fin|].
      assert (Hl : bnd Z C i 1 cs l) by (rewrite Forall_forall in Fl; apply Fl, (Permutation_in l (Permutation_sym Pl)); left; reflexivity).
      assert (Hg : bnd Z C i (-1) cs g) by (rewrite Forall_forall in Fg; apply Fg, (Permutation_in g (Permutation_sym Pg)); left; reflexivity).
      destruct (bnd_facts _ _ _ _ _ _ Hl) as (lo&lv&E1&_&U&F1&N1). destruct (bnd_facts _ _ _ _ _ _ Hg) as (go&gv&E2&_&_&F2&N2).
      rewrite E1, E2. destruct (fit_compare (C i) lv gv U F1 F2 N1 N2) as (c&Ec&_). rewrite Ec.
      destruct (c <? 0); [fin|]. destruct (c =? 0); [|fin]. destruct (negb (strict lo) && negb (strict go)); [|fin].
      destruct Hl as (o&a&v&Np&_). rewrite Np. eexists. split; [reflexivity|]. apply set_plain; [exact P|exact Logic.I].
    + unfold cut_in. rewrite Ei.
      assert (Hin : forall m, List.In m (n :: q) -> in_here i cs m /\ usable (C i)).
      { intros m Hm. assert (Hm2 : List.In m (lists s Rin)) by (cbn; rewrite Ei; exact Hm).
        destruct (Cur Rin m Hm2) as (p&Np&Wp&Pp&Cu). destruct p as [o a x v|x l hn|o xs vs|xs rows hn|e]; cbn [current plain] in Cu; try contradiction.
        - destruct Cu as (t&_&K). destruct o; try contradiction; discriminate.
        - destruct Cu as (t&->&_). destruct Wp as (t'&U&(Et'&ECi)&_&F). subst t'. rewrite <- ECi in *. split; [|exact U]. exists (LSlot i (C i)), l, hn. auto. }
      destruct (Hin n (or_introl eq_refl)) as (Hn&U). destruct (in_texts i cs n Hn) as (p&vs&ts&Np&Ecol&Et&Fts). rewrite Np.
      unfold first_map. rewrite Ecol, Et.
      assert (G : forall ts o, Forall (vok i) ts -> Forall (vok i) o -> Forall (vok i) (fold_left (fun m (e : list BinNums.Z * value) => kput (fst e) (snd e) m) ts o)).
      { induction ts0 as [|e ts0 IHt]; intros o Ft Fo; cbn [fold_left]; [exact Fo|]. inversion Ft; subst. apply IHt; [assumption|]. apply kput_all; [exact Fo|assumption]. }
      destruct (meet_def i cs q (fold_left (fun m (e : list BinNums.Z * value) => kput (fst e) (snd e) m) ts []) cut) as (m&cut'&Em&Fm);
        [apply G; [exact Fts|constructor]|intros k Hk; apply Hin; right; exact Hk|].
      rewrite Em. destruct m as [|e0 m']; [fin|].
      destruct (keep_def i cs (sp_lt s ++ sp_gt s) (e0 :: m') U Fm) as (ks&Ek).
      { intros k Hk. apply in_app_iff in Hk. destruct Hk as [Hk|Hk]; [exists 1; apply (Bnd Rlt 1 k Hk); auto|exists (-1); apply (Bnd Rgt (-1) k Hk); auto]. }
      rewrite Ek. destruct ks; [fin|]. eexists. split; [reflexivity|]. apply trim_plain. exact P.
  - unfold cut_eq. rewrite Eq.
    assert (Hn : List.In n (lists s Req)) by (cbn; rewrite Eq; left; reflexivity).
    destruct (Cur Req n Hn) as (p&Np&Wp&Pp&Cu). destruct (eq_head Z C i p Wp Cu) as (w&Ew&_). rewrite Np, Ew.
    destruct (replace_def i (sp_ref s) w (q ++ sp_lt s ++ sp_gt s ++ sp_in s) cs false P) as (cs'&fr'&Er&P').
    { intros m Hm. rewrite !in_app_iff in Hm. destruct Hm as [Hm|[Hm|[Hm|Hm]]];
        [apply (NOther Req); cbn; rewrite Eq; right; exact Hm|apply (NOther Rlt _ Hm)|apply (NOther Rgt _ Hm)|apply (NOther Rin _ Hm)]. }
    rewrite Er. fin.
Qed.

Lemma cut_slots_def cs0 : Forall rows_once cs0 -> (length cs0 <= 16)%nat -> forall k i cs cut, state Z C cs0 i cs cut -> Forall plain cs ->
  exists res, cut_slots cs0 i k cs cut = Some res /\ match res with Empty => True | Go cs' _ => Forall plain cs' end.
Proof.
  intros O1 Len. induction k as [|k IH]; intros i cs cut St P; cbn [cut_slots]; [fin|].
  destruct (need_cut _) eqn:NC; [|apply IH; [apply state_mono; exact St|exact P]].
  destruct (step_def cs0 i cs cut O1 Len St P NC) as (res&E&Pr). rewrite E. destruct res as [|cs' cut']; [fin|].
  pose proof (predicate_cut_ok Z C cs0 i cs cut (Go cs' cut') O1 St E) as (St'&_). apply IH; assumption.
Qed.

Lemma optimize_def cs : Forall (fun p => wt Z C p /\ or_ok Z C p /\ plain (or_optimize p)) cs -> (length cs <= 16)%nat ->
  exists res, optimize cs = Some res /\ forall l, res = Some l -> Forall (fun p => wt Z C p /\ plain p) l.
Proof.
  intros F Len. unfold optimize. set (cs1 := map or_optimize cs) in *.
  assert (W1 : Forall (wt Z C) cs1).
  { unfold cs1. rewrite Forall_forall in *. intros p Hp. apply in_map_iff in Hp. destruct Hp as (p0&<-&Hp). destruct (F p0 Hp) as (A&B&_). apply or_ok_true; assumption. }
  assert (P1 : Forall plain cs1).
  { unfold cs1. rewrite Forall_forall in *. intros p Hp. apply in_map_iff in Hp. destruct Hp as (p0&<-&Hp). apply (F p0 Hp). }
  assert (O1 : Forall rows_once cs1) by (eapply Forall_impl; [|exact W1]; apply wt_once).
  assert (St : state Z C cs1 0 cs1 []).
  { split; [|split; [exact W1|constructor]]. clear. induction cs1; constructor; [apply evolved_refl|assumption]. }
  assert (L1 : (length cs1 <= 16)%nat) by (unfold cs1; rewrite map_length; exact Len).
  destruct (cut_slots_def cs1 O1 L1 (list_max (map pred_top cs1)) 0%nat cs1 [] St P1) as (res&E&Pr). rewrite E.
  pose proof (cut_slots_ok Z C cs1 O1 _ 0%nat cs1 [] res St E) as W2.
  destruct res as [|cs2 cut]; [exists None; split; [reflexivity|discriminate]|]. destruct W2 as (W2&_).
  destruct (finish_def cs2 cut W2 Pr 0%nat) as (fin&Ef). exists fin. split; [exact Ef|]. intros l El.
  destruct (finish_ok Z C cs2 cut 0%nat fin Ef) as (Q&_). specialize (Q l El). rewrite Forall_forall in *. intros p Hp. split; [apply W2|apply Pr]; apply Q; exact Hp.
Qed.
End Def.
