(* The whole rewrite of a list of conjuncts. *)
From Verif Require Import Common.Bytes Common.KV Expr.Value Expr.Model Expr.Spec Expr.Proofs Expr.RowCompare Cut.Model Cut.Spec Cut.Values Cut.Truth Cut.Collect Cut.EqStep Cut.InStep Cut.RangeStep Cut.OrIn.
Local Open Scope Z_scope.

Section Row.
Variable Z : value -> Prop.
Variable C : nat -> ptype.

Lemma predicate_cut_ok cs0 i cs cut res : Forall rows_once cs0 -> state Z C cs0 i cs cut ->
  predicate_cut i (collect i 0 cs0 sp0) cs cut = Some res -> step_ok Z C cs0 i cs cut res.
Proof.
  intros O1 St E. unfold predicate_cut in E.
  destruct (sp_eq _); [destruct (sp_in _)|].
  - eapply cut_range_ok; eauto.
  - eapply cut_in_ok; eauto.
  - eapply cut_eq_ok; eauto.
Qed.

Lemma cut_slots_ok cs0 : Forall rows_once cs0 -> forall k i cs cut res, state Z C cs0 i cs cut ->
  cut_slots cs0 i k cs cut = Some res ->
  match res with
  | Empty => forall r, row_fz Z C r -> ~ live r cs cut
  | Go cs' cut' => Forall (wt Z C) cs' /\ forall r, row_fz Z C r -> (live r cs cut <-> live r cs' cut')
  end.
Proof.
  intros O1. induction k as [|k IH]; intros i cs cut res St E; cbn [cut_slots] in E.
  - injection E as <-. split; [apply St|reflexivity].
  - destruct (need_cut _); [|apply (IH (S i)); [apply state_mono; exact St|exact E]].
    destruct (predicate_cut i _ cs cut) as [[|cs' cut']|] eqn:Ep; [| |discriminate].
    + injection E as <-. apply (predicate_cut_ok cs0 i cs cut Empty O1 St Ep).
    + destruct (predicate_cut_ok cs0 i cs cut (Go cs' cut') O1 St Ep) as (St'&L). specialize (IH (S i) cs' cut' res St' E).
      destruct res as [|cs2 cut2].
      * intros r R H. apply (IH r R), L, H. exact R.
      * destruct IH as (W&L2). split; [exact W|]. intros r R. rewrite (L r R). apply L2. exact R.
Qed.

(* ---- constants ---- *)
Lemma const_eval e : const_expr e = true -> forall r r', eval r e = eval r' e.
Proof.
  induction e as [i t|v|l IH|l IH|a b IHa IHb|a IHa|a IHa|a IHa|o a b IHa IHb|x l IHx IHl] using expr_ind2; intros H r r'; try discriminate; try reflexivity.
  - cbn [const_expr] in H. rewrite !eval_and. generalize false as hn. induction l as [|c q IHq]; intros hn; cbn [and_go]; [reflexivity|].
    cbn [forallb] in H. apply andb_true_iff in H. destruct H as (Hc&Hq). inversion IH as [|? ? Ic Iq]; subst. rewrite (Ic Hc r r').
    destruct (eval r' c) as [v|]; [|reflexivity]. destruct (_ && _); [reflexivity|]. apply IHq; assumption.
  - cbn [const_expr] in H. rewrite !eval_or. generalize false as hn. induction l as [|c q IHq]; intros hn; cbn [or_go]; [reflexivity|].
    cbn [forallb] in H. apply andb_true_iff in H. destruct H as (Hc&Hq). inversion IH as [|? ? Ic Iq]; subst. rewrite (Ic Hc r r').
    destruct (eval r' c) as [v|]; [|reflexivity]. destruct (_ && _); [reflexivity|]. apply IHq; assumption.
  - cbn [const_expr] in H. apply andb_true_iff in H. destruct H. cbn [eval]. rewrite (IHa H r r'), (IHb H0 r r'). reflexivity.
  - cbn [eval]. rewrite (IHa H r r'). reflexivity.
  - cbn [eval]. rewrite (IHa H r r'). reflexivity.
  - cbn [eval]. rewrite (IHa H r r'). reflexivity.
  - cbn [const_expr] in H. apply andb_true_iff in H. destruct H. cbn [eval]. rewrite (IHa H r r'), (IHb H0 r r'). reflexivity.
  - cbn [const_expr] in H. apply andb_true_iff in H. destruct H as (Hx&_). cbn [eval]. rewrite (IHx Hx r r'). reflexivity.
Qed.
Lemma leaf_vals_const xs r r' : forallb is_val xs = true -> leaf_vals r xs = leaf_vals r' xs.
Proof.
  induction xs as [|x xs IH]; [reflexivity|]. cbn [forallb leaf_vals]. intros H. apply andb_true_iff in H. destruct H as (A&B).
  destruct x; [discriminate|]. cbn. rewrite (IH B). reflexivity.
Qed.
Lemma const_peval p r r' : const_pred p = true -> peval r p = peval r' p.
Proof.
  destruct p as [o a x v|x l hn|o xs vs|xs rows hn|e]; cbn [const_pred]; intros H.
  - destruct x; [discriminate|]. reflexivity.
  - destruct x; [discriminate|]. reflexivity.
  - cbn [peval]. rewrite (leaf_vals_const xs r r' H). reflexivity.
  - cbn [peval]. rewrite (leaf_vals_const xs r r' H). reflexivity.
  - cbn [peval]. apply const_eval. exact H.
Qed.

Lemma finish_ok cs cut : forall n res, finish n cs cut = Some res ->
  (forall l, res = Some l -> incl l cs) /\
  forall r, (forall m p, nth_error cs m = Some p -> ~ List.In (n + m)%nat cut -> TRUE r p) <-> exists cs', res = Some cs' /\ Forall (TRUE r) cs'.
Proof.
  induction cs as [|p q IH]; intros n res E; cbn [finish] in E.
  - injection E as <-. split; [intros l H; injection H as <-; apply incl_refl|]. intros r. split; [intros _; exists []; split; [reflexivity|constructor]|].
    intros _ m p H. destruct m; discriminate.
  - assert (Dec : forall r, (forall m p', nth_error (p :: q) m = Some p' -> ~ List.In (n + m)%nat cut -> TRUE r p') <->
        (~ List.In n cut -> TRUE r p) /\ (forall m p', nth_error q m = Some p' -> ~ List.In (S n + m)%nat cut -> TRUE r p')).
    { intros r. split.
      - intros H. split; [intros A; apply (H O p eq_refl); rewrite Nat.add_0_r; exact A|]. intros m p' A B. apply (H (S m) p' A). rewrite Nat.add_succ_r. exact B.
      - intros (A&B) [|m] p' E1 E2; [injection E1 as <-; apply A; rewrite Nat.add_0_r in E2; exact E2|]. apply (B m p' E1). rewrite Nat.add_succ_r in E2. exact E2. }
    destruct (existsb (Nat.eqb n) cut) eqn:Ex.
    { apply existsb_exists in Ex. destruct Ex as (m&Hm&Em). apply Nat.eqb_eq in Em. subst m.
      destruct (IH (S n) res E) as (Q&IH'). split; [intros l H x Hx; right; apply (Q l H); exact Hx|]. intros r. rewrite Dec, IH'. tauto. }
    assert (Nin : ~ List.In n cut).
    { intros H. assert (existsb (Nat.eqb n) cut = true) by (apply existsb_exists; exists n; split; [exact H|apply Nat.eqb_refl]). congruence. }
    destruct (const_pred p) eqn:Ec.
    + destruct (peval (fun _ => vnull) p) as [v|] eqn:Ev; [|discriminate].
      assert (Tv : forall r, TRUE r p <-> is_null v || negb (get_bool v) = false).
      { intros r. unfold TRUE. rewrite (const_peval p r (fun _ => vnull) Ec), Ev, orb_false_iff, negb_false_iff.
        split; [intros (w&E1&A); injection E1 as <-; exact A|intros A; exists v; auto]. }
      destruct (is_null v || negb (get_bool v)) eqn:B.
      * injection E as <-. split; [intros l H; discriminate|]. intros r. split; [|intros (cs'&H&_); discriminate].
        intros H. apply Dec in H. destruct H as (H&_). specialize (H Nin). apply Tv in H. discriminate.
      * destruct (IH (S n) res E) as (Q&IH'). split; [intros l H x Hx; right; apply (Q l H); exact Hx|].
        intros r. rewrite Dec, IH'. specialize (Tv r). tauto.
    + destruct (finish (S n) q cut) as [rest|] eqn:Ef; [|discriminate]. injection E as <-. destruct (IH (S n) rest Ef) as (Q&IH').
      split. { intros l H. destruct rest as [l'|]; [|discriminate]. injection H as <-. intros x [<-|Hx]; [left; reflexivity|right; apply (Q l' eq_refl); exact Hx]. }
      intros r. rewrite Dec, IH'. split.
      * intros (A&cs'&->&F). exists (p :: cs'). split; [reflexivity|]. constructor; auto.
      * intros (cs'&Er&F). destruct rest as [l'|]; [|discriminate]. injection Er as <-. inversion F; subst. split; [auto|]. exists l'. auto.
Qed.

Lemma wt_once p : wt Z C p -> rows_once p.
Proof. destruct p as [o a x v|x l hn|o xs vs|xs rows hn|e]; cbn; auto; intros (ts&_&_&N&_); exact N. Qed.

Lemma optimize_true cs res : Forall (fun p => wt Z C p /\ or_ok Z C p) cs -> optimize cs = Some res ->
  (forall l, res = Some l -> Forall (wt Z C) l) /\
  forall r, row_fz Z C r -> (Forall (TRUE r) cs <-> exists cs', res = Some cs' /\ Forall (TRUE r) cs').
Proof.
  intros F E. unfold optimize in E. set (cs1 := map or_optimize cs) in *.
  assert (W1 : Forall (wt Z C) cs1).
  { unfold cs1. rewrite Forall_forall in *. intros p Hp. apply in_map_iff in Hp. destruct Hp as (p0&<-&Hp). destruct (F p0 Hp). apply or_ok_true; assumption. }
  assert (T1 : forall r, row_fz Z C r -> (Forall (TRUE r) cs <-> Forall (TRUE r) cs1)).
  { intros r R. unfold cs1. clear - F R. induction F as [|p q (Wp&Op) _ IH]; cbn [map]; [split; constructor|].
    destruct (or_ok_true Z C p Op Wp) as (_&Tp). specialize (Tp r R). split; intros H; inversion H; subst; constructor; try (apply Tp; assumption); apply IH; assumption. }
  assert (O1 : Forall rows_once cs1) by (eapply Forall_impl; [|exact W1]; apply wt_once).
  assert (St : state Z C cs1 0 cs1 []).
  { split; [|split; [exact W1|constructor]]. clear. induction cs1; constructor; [apply evolved_refl|assumption]. }
  assert (Lv : forall r, live r cs1 [] <-> Forall (TRUE r) cs1).
  { intros r. unfold live. rewrite Forall_forall. split.
    - intros H p Hp. apply In_nth_error in Hp. destruct Hp as (n&Hn). apply (H n p Hn). intros [].
    - intros H n p Hn _. apply H. eapply nth_error_In; eauto. }
  destruct (cut_slots cs1 0 _ cs1 []) as [[|cs2 cut]|] eqn:Ecs; [| |discriminate];
    pose proof (cut_slots_ok cs1 O1 _ 0%nat cs1 [] _ St Ecs) as L.
  - injection E as <-. split; [intros l H; discriminate|]. intros r R. rewrite T1 by exact R. split; [|intros (cs'&H&_); discriminate].
    intros H. exfalso. apply (L r R), Lv, H.
  - destruct L as (W2&L). destruct (finish_ok cs2 cut 0%nat res E) as (Q&Fi). split.
    + intros l H. rewrite Forall_forall in *. intros p Hp. apply W2, (Q l H p Hp).
    + intros r R. rewrite T1, <- Lv, (L r R) by exact R. exact (Fi r).
Qed.

(* keeping a row is having every conjunct TRUE *)
Lemma keeps_true cs r : keeps cs r = Some true <-> Forall (TRUE r) cs.
Proof.
  induction cs as [|p q IH]; cbn [keeps]; [split; constructor|]. split.
  - destruct (peval r p) as [v|] eqn:E; [|discriminate]. destruct (is_null v || negb (get_bool v)) eqn:B; [discriminate|].
    intros H. constructor; [|apply IH; exact H]. exists v. apply orb_false_iff in B. destruct B as (N&B). apply negb_false_iff in B. auto.
  - intros F. inversion F as [|? ? (v&E&N&G) Fq]; subst. rewrite E, N, G. cbn. apply IH. exact Fq.
Qed.
End Row.
