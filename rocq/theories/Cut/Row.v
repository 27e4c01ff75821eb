(* Row comparisons against SQL. *)
From Verif Require Import Common.Bytes Common.KV Expr.Value Expr.Model Expr.Spec Expr.Proofs Expr.RowCompare Cut.Model Cut.Spec Cut.Values Cut.Truth Cut.Collect Cut.EqStep.
Local Open Scope Z_scope.

Section Row.
Variable Z : value -> Prop.
Variable C : nat -> ptype.
Variable r : row.
Hypothesis R : row_fz Z C r.

Definition den2 (l vs : list value) := combine (map denote l) (map denote vs).

Lemma multi_sql o ts : forall l vs, Forall usable ts -> Forall2 (fnn Z) ts l -> Forall2 (fnn Z) ts vs ->
  exists b, multi o (combine l vs) = Some b /\ row3 o (den2 l vs) = Some b.
Proof.
  intros l vs U F. revert vs. induction F as [|t x ts l (Fx&Nx) _ IH]; intros vs G; inversion G as [|? v ? vs' Fv G']; subst; cbn [combine multi map row3 den2]; [eauto|].
  inversion U as [|? ? Ut Us]; subst.
  destruct (fit_compare t x v Ut (proj1 Fx) (proj1 (proj1 Fv)) Nx (proj2 Fv)) as (c&Ec&Oc). rewrite Ec.
  destruct (IH Us vs' G') as (b&Eb&Rb). unfold den2 in *. cbn [map combine row3]. rewrite Eb, Rb. unfold cmp3. rewrite Oc. cbn [option_map rel].
  destruct (Z.compare_spec c 0) as [->|L|L].
  - destruct o; cbn; destruct b; eauto.
  - assert (c =? 0 = false) as -> by (apply Z.eqb_neq; lia). assert (c <? 0 = true) as -> by (apply Z.ltb_lt; lia).
    destruct o, b; cbn; eauto.
  - assert (c =? 0 = false) as -> by (apply Z.eqb_neq; lia). assert (c <? 0 = false) as -> by (apply Z.ltb_ge; lia).
    assert (0 <? c = true) as -> by (apply Z.ltb_lt; lia). destruct o, b; cbn; eauto.
Qed.

Lemma row3_eq l vs : length l = length vs -> (row3 CEq (den2 l vs) = Some true <-> Forall2 eqv2 l vs).
Proof.
  revert vs. induction l as [|x l IH]; intros [|v vs] L; try discriminate; unfold den2 in *; cbn [map combine row3]; [split; [constructor|reflexivity]|].
  cbn in L. specialize (IH vs ltac:(congruence)). split.
  - intros H. unfold cmp3 in H. destruct (order (denote x) (denote v)) as [[]|] eqn:Ox; cbn [option_map rel] in H;
      destruct (row3 CEq _) as [[]|]; cbn in H; try discriminate. constructor; [exact Ox|]. apply IH. reflexivity.
  - intros Q. inversion Q as [|? ? ? ? Q1 Q2]; subst. unfold cmp3. unfold eqv2 in Q1. rewrite Q1. apply IH in Q2. rewrite Q2. reflexivity.
Qed.

Lemma row_cmp_sql o xs vs : wt Z C (RowCmp o xs vs) ->
  exists l, leaf_vals r xs = Some l /\
    (Forall (fun v => is_null v = false) l -> exists b, peval r (RowCmp o xs vs) = Some (vbool b) /\ row3 o (den2 l vs) = Some b).
Proof.
  intros (ts&U&L&_&G). destruct (leaf_values Z C r R ts xs U L) as (l&El&Fl). exists l. split; [exact El|]. intros N.
  assert (Fl' : Forall2 (fnn Z) ts l).
  { clear - Fl N. induction Fl as [|t x ts l Fx _ IH]; constructor; inversion N; subst; [split; assumption|auto]. }
  destruct (multi_sql o ts l vs U Fl' G) as (b&Eb&Rb). exists b. split; [|exact Rb].
  cbn [peval]. assert (same_len xs vs = true) as ->. { unfold same_len. apply Nat.eqb_eq. rewrite <- (F2_len _ _ _ L). apply (F2_len _ _ _ G). }
  rewrite El, Eb. reflexivity.
Qed.

Lemma row_eq_sql xs vs : wt Z C (RowCmp CEq xs vs) ->
  exists l, leaf_vals r xs = Some l /\ (TRUE r (RowCmp CEq xs vs) <-> row3 CEq (den2 l vs) = Some true).
Proof.
  intros (ts&U&L&_&G). destruct (leaf_values Z C r R ts xs U L) as (l&El&Fl). exists l. split; [exact El|].
  rewrite (T_roweq Z C r R xs vs ts U L G), row3_eq by (rewrite <- (F2_len _ _ _ Fl); apply (F2_len _ _ _ G)). split.
  - intros (l'&E'&Q). congruence.
  - intros Q. eauto.
Qed.

Lemma fold_or l : fold_right or3 (Some false) l = Some true <-> List.In (Some true) l.
Proof.
  induction l as [|a l IH]; cbn [fold_right List.In]; [split; [discriminate|intros []]|]. rewrite <- IH.
  destruct a as [[]|], (fold_right or3 (Some false) l) as [[]|]; cbn; split; intuition congruence.
Qed.

Lemma row_in_sql xs rows hn : wt Z C (RowIn xs rows hn) ->
  exists l, leaf_vals r xs = Some l /\
    (TRUE r (RowIn xs rows hn) <-> row_in3 (map denote l) (map (fun g => map (fun e : elem => denote (snd e)) g) rows) = Some true).
Proof.
  intros (ts&U&L&_&NE&G&ZZ). assert (U' : Forall usable ts) by (eapply Forall_impl; [|exact U]; intros a (H&_); exact H).
  destruct (leaf_values Z C r R ts xs U' L) as (l&El&Fl). exists l. split; [exact El|].
  rewrite (T_rowin Z C r R ZZ ts xs rows hn U L G). unfold row_in3. rewrite fold_or.
  assert (Len : forall g, List.In g rows -> length l = length g).
  { intros g Hg. rewrite Forall_forall in G. rewrite <- (F2_len _ _ _ Fl). apply (F2_len _ _ _ (G g Hg)). }
  assert (E : forall g, Forall2 (fun x (e : elem) => eqv2 x (snd e)) l g <-> Forall2 eqv2 l (map snd g)).
  { clear. induction l as [|x l IH]; intros [|e g]; cbn; split; intros H; inversion H; subst; constructor; auto; apply IH; assumption. }
  rewrite map_map. rewrite in_map_iff. split.
  - intros (l'&g&E'&Hg&Q). assert (l' = l) as -> by congruence. exists g. split; [|exact Hg].
    apply E in Q. apply row3_eq in Q; [|rewrite map_length; apply Len; exact Hg]. unfold den2 in Q. rewrite map_map in Q. exact Q.
  - intros (g&Q&Hg). exists l, g. split; [exact El|]. split; [exact Hg|]. apply E. apply row3_eq; [rewrite map_length; apply Len; exact Hg|].
    unfold den2. rewrite map_map. exact Q.
Qed.
End Row.
