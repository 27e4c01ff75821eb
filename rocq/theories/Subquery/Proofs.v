(* Lemmas about the predicates with subqueries that are run while planning. *)
From Coq Require Import List Bool Arith Lia.
From Verif Require Import Subquery.Spec Subquery.Model.
Import ListNotations.

Section Proofs.
Context {V : Type}.
Variable cmp : V -> V -> comparison.
Variable zero : V.
Hypothesis T : total_order cmp.

Lemma cmp_refl a : cmp a a = Eq.
Proof. now apply (cmp_eq cmp T). Qed.
Lemma eq_of a b : cmp a b = Eq -> a = b.
Proof. apply (cmp_eq cmp T). Qed.
Lemma gt_lt a b : cmp a b = Gt <-> cmp b a = Lt.
Proof. rewrite (cmp_opp cmp T a b). destruct (cmp a b); cbn; split; congruence. Qed.
Lemma not_lt_trans a b c : cmp a b <> Lt -> cmp b c <> Lt -> cmp a c <> Lt.
Proof.
  intros A B C. destruct (cmp a b) eqn:E1; [apply eq_of in E1; congruence|congruence|].
  apply gt_lt in E1. apply B. eapply (cmp_lt cmp T); eassumption.
Qed.
Lemma not_gt_trans a b c : cmp a b <> Gt -> cmp b c <> Gt -> cmp a c <> Gt.
Proof.
  intros A B C. apply gt_lt in C. revert C. apply not_lt_trans with b; intro E.
  - apply B. now apply gt_lt.
  - apply A. now apply gt_lt.
Qed.

Lemma compare_fn_spec op x y : compare_fn cmp op x y = compare3 cmp op x y.
Proof. destruct x as [a|], y as [b|]; try reflexivity; cbn; destruct op, (cmp a b); reflexivity. Qed.

(* ---- three-valued folds ---- *)

Lemma or3_true a b : or3 a b = Some true <-> a = Some true \/ b = Some true.
Proof. clear T zero. destruct a as [[]|], b as [[]|]; cbn; intuition congruence. Qed.
Lemma or3_false a b : or3 a b = Some false <-> a = Some false /\ b = Some false.
Proof. clear T zero. destruct a as [[]|], b as [[]|]; cbn; intuition congruence. Qed.
Lemma and3_true a b : and3 a b = Some true <-> a = Some true /\ b = Some true.
Proof. clear T zero. destruct a as [[]|], b as [[]|]; cbn; intuition congruence. Qed.
Lemma and3_false a b : and3 a b = Some false <-> a = Some false \/ b = Some false.
Proof. clear T zero. destruct a as [[]|], b as [[]|]; cbn; intuition congruence. Qed.

Lemma any3_true op x vs : any3 cmp op x vs = Some true <-> exists v, In v vs /\ compare3 cmp op x v = Some true.
Proof.
  unfold any3. induction vs as [|v vs IH]; cbn [fold_right]; [split; [discriminate|intros (? & [] & _)]|].
  rewrite or3_true, IH. split.
  - intros [E|(w & Iw & E)]; [exists v; split; [now left|exact E]|exists w; split; [now right|exact E]].
  - intros (w & [->|Iw] & E); [now left|right; exists w; auto].
Qed.
Lemma any3_false op x vs : any3 cmp op x vs = Some false <-> forall v, In v vs -> compare3 cmp op x v = Some false.
Proof.
  unfold any3. induction vs as [|v vs IH]; cbn [fold_right]; [split; [intros _ ? []|reflexivity]|].
  rewrite or3_false, IH. split.
  - intros [E F] w [->|Iw]; auto.
  - intros F. split; [apply F; now left|intros w Iw; apply F; now right].
Qed.
Lemma all3_true op x vs : all3 cmp op x vs = Some true <-> forall v, In v vs -> compare3 cmp op x v = Some true.
Proof.
  unfold all3. induction vs as [|v vs IH]; cbn [fold_right]; [split; [intros _ ? []|reflexivity]|].
  rewrite and3_true, IH. split.
  - intros [E F] w [->|Iw]; auto.
  - intros F. split; [apply F; now left|intros w Iw; apply F; now right].
Qed.
Lemma all3_false op x vs : all3 cmp op x vs = Some false <-> exists v, In v vs /\ compare3 cmp op x v = Some false.
Proof.
  unfold all3. induction vs as [|v vs IH]; cbn [fold_right]; [split; [discriminate|intros (? & [] & _)]|].
  rewrite and3_false, IH. split.
  - intros [E|(w & Iw & E)]; [exists v; split; [now left|exact E]|exists w; split; [now right|exact E]].
  - intros (w & [->|Iw] & E); [now left|right; exists w; auto].
Qed.
Lemma tri (a b : option bool) : (a = Some true <-> b = Some true) -> (a = Some false <-> b = Some false) -> a = b.
Proof.
  clear T zero. destruct a as [[]|], b as [[]|]; intros [A A'] [B B']; auto; exfalso; firstorder congruence.
Qed.
Lemma not3_swap a b : not_predicate a = b <-> a = not3 b.
Proof. destruct a as [[]|], b as [[]|]; cbn; split; congruence. Qed.

(* ---- IN ---- *)

Lemma in_predicate_true x ls : in_predicate cmp x ls = Some true <-> any3 cmp OpEq x ls = Some true.
Proof.
  rewrite any3_true. destruct x as [a|]; cbn [in_predicate]; [|split; [discriminate|intros (v & _ & E); destruct v; discriminate]].
  destruct (existsb (fun l => match l with Some b => match cmp a b with Eq => true | _ => false end | None => false end) ls) eqn:E.
  - split; [intros _|reflexivity]. apply existsb_exists in E as ([b|] & Ib & E); [|discriminate]. exists (Some b). split; [exact Ib|]. cbn.
    destruct (cmp a b); (reflexivity || discriminate).
  - split; [intros X; exfalso; destruct (existsb (fun l : option V => match l with Some _ => false | None => true end) ls); discriminate|]. intros (v & Iv & C). exfalso.
    assert (X : existsb (fun l => match l with Some b => match cmp a b with Eq => true | _ => false end | None => false end) ls = true).
    { apply existsb_exists. exists v. split; [exact Iv|]. destruct v as [b|]; [|discriminate]. cbn in C. destruct (cmp a b); cbn in C; congruence. }
    congruence.
Qed.
Lemma in_predicate_false x ls : ls <> [] -> (in_predicate cmp x ls = Some false <-> any3 cmp OpEq x ls = Some false).
Proof.
  intros N. rewrite any3_false. destruct x as [a|]; cbn [in_predicate].
  2:{ split; [discriminate|]. intros F. destruct ls as [|v ls]; [congruence|]. specialize (F v (or_introl eq_refl)). destruct v; discriminate. }
  destruct (existsb (fun l => match l with Some b => match cmp a b with Eq => true | _ => false end | None => false end) ls) eqn:E.
  - split; [discriminate|]. intros F. exfalso. apply existsb_exists in E as ([b|] & Ib & E); [|discriminate]. specialize (F _ Ib). cbn in F.
    destruct (cmp a b); cbn in F; congruence.
  - destruct (existsb (fun l => match l with None => true | Some _ => false end) ls) eqn:E2.
    + split; [discriminate|]. intros F. exfalso. apply existsb_exists in E2 as ([b|] & Ib & E2); [discriminate|]. specialize (F _ Ib). discriminate.
    + split; [intros _|reflexivity]. intros v Iv. destruct v as [b|].
      * cbn. destruct (cmp a b) eqn:C; [|reflexivity|reflexivity]. exfalso.
        assert (X : existsb (fun l => match l with Some b => match cmp a b with Eq => true | _ => false end | None => false end) ls = true)
          by (apply existsb_exists; exists (Some b); split; [exact Iv|now rewrite C]). congruence.
      * exfalso. assert (X : existsb (fun l : option V => match l with None => true | Some _ => false end) ls = true)
          by (apply existsb_exists; exists None; auto). congruence.
Qed.
Lemma in_predicate_any x ls : ls <> [] -> in_predicate cmp x ls = any3 cmp OpEq x ls.
Proof. intros N. apply tri; [apply in_predicate_true|now apply in_predicate_false]. Qed.
Lemma not_any_all x ls : not3 (any3 cmp OpEq x ls) = all3 cmp OpNe x ls.
Proof.
  unfold any3, all3. induction ls as [|v ls IH]; [reflexivity|]. cbn [fold_right]. rewrite <- IH.
  set (r := fold_right (fun v => or3 (compare3 cmp OpEq x v)) (Some false) ls).
  replace (compare3 cmp OpNe x v) with (not3 (compare3 cmp OpEq x v)) by (destruct x, v; cbn; try reflexivity; destruct (cmp _ _); reflexivity).
  destruct (compare3 cmp OpEq x v) as [[]|], r as [[]|]; reflexivity.
Qed.
Lemma not_in_all x ls : ls <> [] -> not_predicate (in_predicate cmp x ls) = all3 cmp OpNe x ls.
Proof. intros N. rewrite in_predicate_any by exact N. apply not_any_all. Qed.

(* ---- MIN and MAX ---- *)

Definition is_extreme (f : extreme) (vs : list (option V)) (m : option V) : Prop :=
  match f with EMin => is_min cmp vs m | EMax => is_max cmp vs m end.

Lemma agg_from f : forall vs seen acc, is_extreme f seen acc -> is_extreme f (seen ++ vs) (fold_left (agg_update cmp f) vs acc).
Proof.
  induction vs as [|v vs IH]; intros seen acc H0; cbn [fold_left]; [now rewrite app_nil_r|].
  replace (seen ++ v :: vs) with ((seen ++ [v]) ++ vs) by now rewrite <- app_assoc.
  apply IH. clear IH. destruct v as [b|]; cbn [agg_update].
  - destruct acc as [a|].
    + destruct f; cbn in *; destruct H0 as [Ia M].
      * assert (K : cmp a b <> Gt -> is_min cmp (seen ++ [Some b]) (Some a)).
        { intros N. split; [apply in_app_iff; now left|]. intros c Ic. apply in_app_iff in Ic as [Ic|[[= ->]|[]]]; auto. }
        destruct (cmp a b) eqn:E; [apply K; discriminate|apply K; discriminate|].
        split; [apply in_app_iff; right; now left|]. intros c Ic. apply in_app_iff in Ic as [Ic|[[= ->]|[]]]; [|rewrite cmp_refl; discriminate].
        apply not_gt_trans with a; [|auto]. apply gt_lt in E. rewrite E. discriminate.
      * assert (K : cmp a b <> Lt -> is_max cmp (seen ++ [Some b]) (Some a)).
        { intros N. split; [apply in_app_iff; now left|]. intros c Ic. apply in_app_iff in Ic as [Ic|[[= ->]|[]]]; auto. }
        destruct (cmp a b) eqn:E; [apply K; discriminate| |apply K; discriminate].
        split; [apply in_app_iff; right; now left|]. intros c Ic. apply in_app_iff in Ic as [Ic|[[= ->]|[]]]; [|rewrite cmp_refl; discriminate].
        apply not_lt_trans with a; [|auto]. apply gt_lt in E. rewrite E. discriminate.
    + assert (K : forall c, In (Some c) (seen ++ [Some b]) -> c = b).
      { intros c Ic. apply in_app_iff in Ic as [Ic|[[= ->]|[]]]; [|reflexivity]. exfalso. destruct f; cbn in H0; now apply (H0 c). }
      destruct f; cbn; (split; [apply in_app_iff; right; now left|]); intros c Ic; rewrite (K c Ic), cmp_refl; discriminate.
  - destruct f, acc as [a|]; cbn in *.
    + destruct H0 as [Ia M]. split; [apply in_app_iff; now left|]. intros c Ic. apply in_app_iff in Ic as [Ic|[[=]|[]]]. auto.
    + intros b Ib. apply in_app_iff in Ib as [Ib|[[=]|[]]]. now apply (H0 b).
    + destruct H0 as [Ia M]. split; [apply in_app_iff; now left|]. intros c Ic. apply in_app_iff in Ic as [Ic|[[=]|[]]]. auto.
    + intros b Ib. apply in_app_iff in Ib as [Ib|[[=]|[]]]. now apply (H0 b).
Qed.
Lemma agg_extreme f vs : is_extreme f vs (agg cmp f vs).
Proof. apply (agg_from f vs [] None). destruct f; cbn; intros b []. Qed.

Definition top (asc : bool) (v : option V) (l : list (option V)) : Prop := forall w, In w l -> row_before cmp asc v w = true.
Lemma row_before_refl asc v : row_before cmp asc v v = true.
Proof. destruct v as [a|]; cbn; [now rewrite cmp_refl|apply orb_true_r]. Qed.
Lemma row_before_total asc v w : row_before cmp asc v w = false -> row_before cmp asc w v = true.
Proof.
  destruct v as [a|], w as [b|]; cbn; try (destruct asc; cbn; congruence).
  rewrite (cmp_opp cmp T a b). destruct (cmp a b), asc; cbn; congruence.
Qed.
Lemma row_before_trans asc u v w : row_before cmp asc u v = true -> row_before cmp asc v w = true -> row_before cmp asc u w = true.
Proof.
  destruct u as [a|], v as [b|], w as [c|]; cbn; try (destruct asc; cbn; congruence).
  intros A B. destruct asc; cbn [negb] in *.
  - assert (X : cmp a c <> Gt) by (apply not_gt_trans with b; [destruct (cmp a b)|destruct (cmp b c)]; congruence). destruct (cmp a c); cbn; congruence.
  - assert (X : cmp a c <> Lt) by (apply not_lt_trans with b; [destruct (cmp a b)|destruct (cmp b c)]; cbn in *; congruence). destruct (cmp a c); cbn; congruence.
Qed.
Lemma insert_in asc v l w : In w (insert cmp asc v l) <-> w = v \/ In w l.
Proof.
  induction l as [|u l IH]; cbn; [intuition|]. destruct (row_before cmp asc v u); cbn; [intuition|]. rewrite IH. intuition.
Qed.
Lemma sort_in asc l w : In w (sort cmp asc l) <-> In w l.
Proof. induction l as [|u l IH]; cbn; [reflexivity|]. rewrite insert_in, IH. intuition. Qed.
Lemma insert_head asc v l : (forall h t, l = h :: t -> top asc h l) -> forall h t, insert cmp asc v l = h :: t -> top asc h (v :: l).
Proof.
  intros Hl h t. destruct l as [|u l]; cbn.
  - intros [= <- <-] w [->|[]]. apply row_before_refl.
  - destruct (row_before cmp asc v u) eqn:E; intros [= <- <-] w [->|Iw].
    + apply row_before_refl.
    + apply row_before_trans with u; [exact E|]. now apply (Hl u l eq_refl).
    + now apply row_before_total.
    + now apply (Hl u l eq_refl).
Qed.
Lemma sort_head asc l h t : sort cmp asc l = h :: t -> In h l /\ top asc h l.
Proof.
  intros E. split; [apply (sort_in asc); rewrite E; now left|]. revert h t E. induction l as [|v l IH]; cbn [sort fold_right]; [discriminate|].
  intros h t E. fold (sort cmp asc l) in E.
  assert (K : forall h t, sort cmp asc l = h :: t -> top asc h (sort cmp asc l)).
  { intros h' t' E' w Iw. apply (proj1 (sort_in asc l w)) in Iw. exact (IH h' t' E' w Iw). }
  pose proof (insert_head asc v (sort cmp asc l) K h t E) as X. intros w [->|Iw]; apply X; [now left|right; now apply (sort_in asc)].
Qed.

(* the row of ORDER BY c LIMIT 1 *)
Lemma minmax_row f vs : exists m, minmax_remove cmp f vs = [m] /\
  (vs = [] /\ m = None \/ In m vs /\ top (match f with EMin => true | EMax => false end) m vs).
Proof.
  unfold minmax_remove. destruct (sort cmp (match f with EMin => true | EMax => false end) vs) as [|h t] eqn:E; cbn [firstn].
  - exists None. split; [reflexivity|]. left. split; [|reflexivity]. destruct vs as [|v vs]; [reflexivity|].
    exfalso. assert (X : In v []) by (rewrite <- E; apply sort_in; now left). destruct X.
  - exists h. split; [reflexivity|]. right. eapply sort_head. exact E.
Qed.
Lemma minmax_max vs : exists m, minmax_remove cmp EMax vs = [m] /\ is_max cmp vs m.
Proof.
  destruct (minmax_row EMax vs) as (m & E & [[Ev Em]|[Im Tm]]); exists m; (split; [exact E|]).
  - subst. intros b [].
  - destruct m as [a|]; cbn.
    + split; [exact Im|]. intros b Ib. specialize (Tm _ Ib). cbn in Tm. destruct (cmp a b); cbn in *; congruence.
    + intros b Ib. specialize (Tm _ Ib). discriminate.
Qed.
Lemma minmax_min vs : no_nulls vs -> exists m, minmax_remove cmp EMin vs = [m] /\ is_min cmp vs m.
Proof.
  intros N. destruct (minmax_row EMin vs) as (m & E & [[Ev Em]|[Im Tm]]); exists m; (split; [exact E|]).
  - subst. intros b [].
  - assert (K : m <> None) by (unfold no_nulls in N; rewrite Forall_forall in N; auto). destruct m as [a|]; [|congruence]. cbn.
    split; [exact Im|]. intros b Ib. specialize (Tm _ Ib). cbn in Tm. destruct (cmp a b); cbn in *; congruence.
Qed.
Lemma minmax_min_null vs : In None vs -> minmax_remove cmp EMin vs = [None].
Proof.
  intros N. destruct (minmax_row EMin vs) as (m & E & [[-> ->]|[Im Tm]]); [destruct N|].
  rewrite E. f_equal. specialize (Tm _ N). destruct m; [discriminate|reflexivity].
Qed.

(* a comparison with the extreme value decides ANY and ALL *)
Lemma some_in (vs : list (option V)) : no_nulls vs -> vs <> [] -> exists a, In (Some a) vs.
Proof. intros N E. destruct vs as [|[a|] vs]; [congruence|exists a; now left|inversion N; congruence]. Qed.
Lemma any_by_extreme op f vs m x : rewrite_fn op QAny = Some f -> is_extreme f vs m ->
  (compare3 cmp op x m = Some true <-> any3 cmp op x vs = Some true).
Proof.
  intros F M. rewrite any3_true. destruct m as [a|].
  - split; [intros E; exists (Some a); destruct f; cbn in M; tauto|].
    intros ([b|] & Ib & E); [|destruct x; discriminate]. destruct x as [y|]; [|discriminate]. cbn in *.
    destruct f, M as [_ M]; specialize (M b Ib); destruct op; cbn in F; try discriminate;
      injection E as E; f_equal.
    + (* Gt *) assert (X : cmp a y = Lt).
      { apply gt_lt. destruct (cmp y a) eqn:Q; [|exfalso|reflexivity].
        - apply eq_of in Q as ->. destruct (cmp a b); cbn in E; congruence.
        - destruct (cmp a b) eqn:Q2; [apply eq_of in Q2 as ->; rewrite Q in E; discriminate| |congruence].
          rewrite (cmp_lt cmp T _ _ _ Q Q2) in E. discriminate. }
      apply gt_lt in X. now rewrite X.
    + (* Ge *) assert (X : cmp y a <> Lt).
      { apply not_lt_trans with b; [destruct (cmp y b); cbn in E; congruence|]. intros Q. apply M. now apply gt_lt. }
      destruct (cmp y a); cbn; congruence.
    + (* Lt *) assert (X : cmp y a = Lt).
      { destruct (cmp y a) eqn:Q; [exfalso|reflexivity|exfalso].
        - apply eq_of in Q as ->. destruct (cmp a b); cbn in E; congruence.
        - apply gt_lt in Q. apply M. destruct (cmp y b) eqn:Q2; cbn in E; try discriminate. eapply (cmp_lt cmp T); eassumption. }
      now rewrite X.
    + (* Le *) assert (X : cmp y a <> Gt).
      { apply not_gt_trans with b; [destruct (cmp y b); cbn in E; congruence|]. intros Q. apply M. now apply gt_lt. }
      destruct (cmp y a); cbn; congruence.
  - split; [destruct x; discriminate|]. intros ([b|] & Ib & E); [|destruct x; discriminate]. exfalso. destruct f; cbn in M; now apply (M b).
Qed.
Lemma all_by_extreme op f vs m x : rewrite_fn op QAll = Some f -> is_extreme f vs m -> no_nulls vs -> vs <> [] ->
  (compare3 cmp op x m = Some true <-> all3 cmp op x vs = Some true).
Proof.
  intros F M N E. rewrite all3_true. destruct (some_in vs N E) as [c Ic].
  destruct m as [a|]; [|exfalso; destruct f; cbn in M; now apply (M c)].
  assert (Ia : In (Some a) vs) by (destruct f; cbn in M; tauto).
  split; [|intros A; now apply A].
  intros C v Iv. unfold no_nulls in N. rewrite Forall_forall in N. destruct v as [b|]; [|exfalso; now apply (N None)].
  destruct x as [y|]; [|discriminate]. cbn in *.
  assert (M' : match f with EMin => cmp a b <> Gt | EMax => cmp a b <> Lt end) by (destruct f, M as [_ M]; auto).
  destruct f, op; cbn in F; try discriminate; injection C as C; f_equal.
  - (* Lt min *) destruct (cmp y b) eqn:Q; cbn; [exfalso|reflexivity|exfalso].
    + apply eq_of in Q as ->. destruct (cmp b a) eqn:Q; cbn in C; try discriminate. apply M'. now apply gt_lt.
    + apply gt_lt in Q. destruct (cmp y a) eqn:Q2; cbn in C; try discriminate. apply M'. apply gt_lt. eapply (cmp_lt cmp T); eassumption.
  - (* Le min *) assert (X : cmp y b <> Gt) by (apply not_gt_trans with a; [destruct (cmp y a); cbn in C; congruence|exact M']). destruct (cmp y b); cbn; congruence.
  - (* Gt max *) destruct (cmp y b) eqn:Q; cbn; [exfalso|exfalso|reflexivity].
    + apply eq_of in Q as ->. destruct (cmp b a) eqn:Q; cbn in C; try discriminate. apply gt_lt in Q. congruence.
    + destruct (cmp y a) eqn:Q2; cbn in C; try discriminate. apply gt_lt in Q2. apply M'. eapply (cmp_lt cmp T); eassumption.
  - (* Ge max *) assert (X : cmp y b <> Lt) by (apply not_lt_trans with a; [destruct (cmp y a); cbn in C; congruence|exact M']). destruct (cmp y b); cbn; congruence.
Qed.

(* ---- the predicates ---- *)

Lemma run_limited (s : subquery V) : run s = limited (sq_limit s) (sq_rows s).
Proof. reflexivity. Qed.

Lemma in_subquery_in s x : limited (sq_limit s) (sq_rows s) <> [] -> in_subquery cmp false s x = any3 cmp OpEq x (limited (sq_limit s) (sq_rows s)).
Proof.
  intros N. unfold in_subquery. rewrite run_limited. replace (literals _) with (limited (sq_limit s) (sq_rows s)).
  - now apply in_predicate_any.
  - unfold literals. destruct (limited _ _); [congruence|reflexivity].
Qed.
Lemma in_subquery_not_in s x : limited (sq_limit s) (sq_rows s) <> [] -> in_subquery cmp true s x = all3 cmp OpNe x (limited (sq_limit s) (sq_rows s)).
Proof.
  intros N. unfold in_subquery. rewrite run_limited. replace (literals _) with (limited (sq_limit s) (sq_rows s)).
  - now apply not_in_all.
  - unfold literals. destruct (limited _ _); [congruence|reflexivity].
Qed.
Lemma in_subquery_true s x : in_subquery cmp false s x = Some true <-> any3 cmp OpEq x (limited (sq_limit s) (sq_rows s)) = Some true.
Proof.
  unfold in_subquery. rewrite run_limited. unfold literals. destruct (limited (sq_limit s) (sq_rows s)) as [|v q] eqn:E; [|apply in_predicate_true].
  cbn. destruct x; cbn; split; discriminate.
Qed.

Lemma compare_subquery_spec op s x :
  compare_subquery cmp op s x = option_map (compare3 cmp op x) (scalar (limited (sq_limit s) (sq_rows s))).
Proof.
  unfold compare_subquery. rewrite run_limited. destruct (limited _ _) as [|v [|w q]]; cbn [scalar option_map]; rewrite ?compare_fn_spec; reflexivity.
Qed.
Lemma select_subquery_spec (s : subquery V) : select_subquery s = scalar (limited (sq_limit s) (sq_rows s)).
Proof. reflexivity. Qed.
Lemma exists_subquery_spec is_not (s : subquery V) :
  exists_subquery is_not s = true <-> (if is_not then limited (sq_limit s) (sq_rows s) = [] else limited (sq_limit s) (sq_rows s) <> []).
Proof. unfold exists_subquery. rewrite run_limited. destruct (limited _ _), is_not; cbn; split; congruence. Qed.

(* = ANY and <> ALL *)
Lemma eq_any_spec s x : quantified_subquery cmp zero OpEq QAny s x = any3 cmp OpEq x (limited (sq_limit s) (sq_rows s)).
Proof.
  unfold quantified_subquery. cbn [run_rewritten rewrite_fn]. unfold run_rewritten. cbn [rewrite_fn]. rewrite run_limited.
  destruct (limited _ _) as [|v q]; [reflexivity|]. cbn [negb andb]. destruct v; apply in_predicate_any; discriminate.
Qed.
Lemma ne_all_spec s x : quantified_subquery cmp zero OpNe QAll s x = all3 cmp OpNe x (limited (sq_limit s) (sq_rows s)).
Proof.
  unfold quantified_subquery, run_rewritten. cbn [rewrite_fn]. rewrite run_limited.
  destruct (limited _ _) as [|v q]; [reflexivity|]. cbn [negb andb]. destruct v; apply not_in_all; discriminate.
Qed.

(* = ALL and <> ANY *)
Lemma always_false_no_nulls v q : no_nulls (v :: q) -> (always_false cmp zero (v :: q) = false <-> forall w, In w q -> w = v).
Proof.
  intros N. inversion N as [|? ? Nv Nq]; subst. destruct v as [a|]; [|congruence]. cbn [always_false]. split.
  - intros E w Iw. unfold no_nulls in Nq. rewrite Forall_forall in Nq. destruct w as [b|]; [|exfalso; now apply (Nq None)].
    destruct (cmp a b) eqn:C.
    + apply eq_of in C. congruence.
    + exfalso. assert (X : existsb (fun v => match raw_compare cmp zero (Some a) v with Eq => false | _ => true end) q = true)
        by (apply existsb_exists; exists (Some b); split; [exact Iw|cbn; now rewrite C]). congruence.
    + exfalso. assert (X : existsb (fun v => match raw_compare cmp zero (Some a) v with Eq => false | _ => true end) q = true)
        by (apply existsb_exists; exists (Some b); split; [exact Iw|cbn; now rewrite C]). congruence.
  - intros F. destruct (existsb _ q) eqn:X; [|reflexivity]. apply existsb_exists in X as (w & Iw & X). rewrite (F w Iw) in X. cbn in X. rewrite cmp_refl in X. discriminate.
Qed.
Lemma any3_same op x v q : (forall w, In w q -> w = v) -> any3 cmp op x (v :: q) = any3 cmp op x [v].
Proof.
  intros F. induction q as [|w q IH]; [reflexivity|]. rewrite (F w (or_introl eq_refl)).
  transitivity (any3 cmp op x (v :: q)); [|apply IH; intros u Iu; apply F; now right].
  unfold any3. cbn [fold_right]. destruct (compare3 cmp op x v) as [[]|], (fold_right _ _ q) as [[]|]; reflexivity.
Qed.
Lemma all3_same op x v q : (forall w, In w q -> w = v) -> all3 cmp op x (v :: q) = all3 cmp op x [v].
Proof.
  intros F. induction q as [|w q IH]; [reflexivity|]. rewrite (F w (or_introl eq_refl)).
  transitivity (all3 cmp op x (v :: q)); [|apply IH; intros u Iu; apply F; now right].
  unfold all3. cbn [fold_right]. destruct (compare3 cmp op x v) as [[]|], (fold_right _ _ q) as [[]|]; reflexivity.
Qed.
Lemma eq_all_true s x : no_nulls (limited (sq_limit s) (sq_rows s)) ->
  (quantified_subquery cmp zero OpEq QAll s x = Some true <-> all3 cmp OpEq x (limited (sq_limit s) (sq_rows s)) = Some true).
Proof.
  intros N. unfold quantified_subquery, run_rewritten. cbn [rewrite_fn]. rewrite run_limited.
  destruct (limited (sq_limit s) (sq_rows s)) as [|v q] eqn:E; [reflexivity|].
  pose proof (always_false_no_nulls v q N) as A. cbn [negb andb].
  destruct (always_false cmp zero (v :: q)) eqn:F.
  - cbn [negb]. destruct v as [a|]; [|inversion N; congruence]. split; [discriminate|]. rewrite all3_true. intros G. exfalso.
    assert (X : true = false).
    { apply A. intros w Iw. pose proof (G _ (or_introl eq_refl)) as G1. pose proof (G _ (or_intror Iw)) as G2.
      destruct x as [y|], w as [b|]; cbn in G1, G2; try discriminate. injection G1 as G1. injection G2 as G2.
      destruct (cmp y a) eqn:C1; try discriminate. destruct (cmp y b) eqn:C2; try discriminate.
      apply eq_of in C1. apply eq_of in C2. congruence. }
    discriminate.
  - cbn [negb firstn]. assert (S0 : forall w, In w q -> w = v) by (now apply A). rewrite (all3_same OpEq x v q S0).
    destruct v as [a|]; [|inversion N; congruence].
    rewrite in_predicate_true, any3_true, all3_true. split.
    + intros (w & [->|[]] & C) w' [<-|[]]. exact C.
    + intros G. exists (Some a). split; [now left|apply G; now left].
Qed.
Lemma ne_any_same s x v : (forall w, In w (limited (sq_limit s) (sq_rows s)) -> w = v) ->
  quantified_subquery cmp zero OpNe QAny s x = any3 cmp OpNe x (limited (sq_limit s) (sq_rows s)).
Proof.
  intros S0. unfold quantified_subquery, run_rewritten. cbn [rewrite_fn]. rewrite run_limited.
  destruct (limited (sq_limit s) (sq_rows s)) as [|u q] eqn:E; [reflexivity|].
  assert (u = v) as -> by (apply S0; now left). cbn [negb andb].
  replace (always_false cmp zero (v :: q)) with false.
  2:{ symmetry. cbn. destruct (existsb _ q) eqn:X; [|reflexivity]. apply existsb_exists in X as (w & Iw & X).
      rewrite (S0 w (or_intror Iw)) in X. destruct v as [a|]; cbn in X; rewrite ?cmp_refl in X; discriminate. }
  cbn [negb firstn]. rewrite any3_same by (intros w Iw; apply S0; now right).
  replace (match v with | Some _ | _ => not_predicate (in_predicate cmp x [v]) end) with (not_predicate (in_predicate cmp x [v])) by (destruct v; reflexivity).
  rewrite in_predicate_any by discriminate. unfold any3. cbn [fold_right].
  destruct x as [a|], v as [b|]; try reflexivity. cbn. destruct (cmp a b); reflexivity.
Qed.

(* the other comparisons, without LIMIT *)
Definition plain_min (op : cop) (q : quantifier) (s : subquery V) : Prop :=
  rewrite_fn op q = Some EMin /\ sq_shape s = ShColumn /\ sq_order s = false.

Lemma rewritten_rows op q s f : sq_limit s = None -> rewrite_fn op q = Some f ->
  (plain_min op q s -> no_nulls (sq_rows s)) ->
  (exists m k, run_rewritten cmp op q s = m :: repeat m k /\ is_extreme f (sq_rows s) m /\ (sq_rows s = [] -> k = 0)) \/
  run_rewritten cmp op q s = [] /\ sq_rows s = [].
Proof.
  intros L F P. unfold run_rewritten. rewrite F, L.
  assert (One : forall m, is_extreme f (sq_rows s) m -> exists m' k, [m] = m' :: repeat m' k /\ is_extreme f (sq_rows s) m' /\ (sq_rows s = [] -> k = 0)) by (intros m M; exists m, 0; auto).
  destruct (sq_shape s) eqn:Sh.
  - destruct (sq_order s) eqn:O; [left; apply One, agg_extreme|]. left. destruct f.
    + destruct (minmax_min (sq_rows s)) as (m & -> & M); [|now apply One]. apply P. repeat split; assumption.
    + destruct (minmax_max (sq_rows s)) as (m & -> & M). now apply One.
  - left. apply One, agg_extreme.
  - pose proof (agg_extreme f (sq_rows s)) as M. set (m := agg cmp f (sq_rows s)) in *. clearbody m. destruct (sq_rows s) as [|v vs]; [now right|]. left. exists m, (length vs). split; [|split; [exact M|discriminate]].
    cbn [map]. f_equal. clear. induction vs; cbn; congruence.
Qed.

Lemma any_true op s x : op = OpGt \/ op = OpGe \/ op = OpLt \/ op = OpLe -> sq_limit s = None ->
  (plain_min op QAny s -> no_nulls (sq_rows s)) ->
  (quantified_subquery cmp zero op QAny s x = Some true <-> any3 cmp op x (sq_rows s) = Some true).
Proof.
  intros O L P.
  assert (F : exists f, rewrite_fn op QAny = Some f) by (destruct O as [->|[->|[->| ->]]]; cbn; eauto). destruct F as [f F].
  destruct (rewritten_rows op QAny s f L F P) as [(m & k & R & M & _)|[R E]].
  - rewrite <- (any_by_extreme op f (sq_rows s) m x F M). unfold quantified_subquery. rewrite R.
    destruct O as [->|[->|[->| ->]]]; cbn [negb andb firstn hd]; rewrite ?compare_fn_spec; destruct m; reflexivity.
  - unfold quantified_subquery. rewrite R, E. destruct O as [->|[->|[->| ->]]]; reflexivity.
Qed.
Lemma all_true op s x : op = OpGt \/ op = OpGe \/ op = OpLt \/ op = OpLe -> sq_limit s = None ->
  no_nulls (sq_rows s) -> sq_rows s <> [] \/ op = OpGt \/ op = OpGe \/ sq_shape s = ShAgg ->
  (quantified_subquery cmp zero op QAll s x = Some true <-> all3 cmp op x (sq_rows s) = Some true).
Proof.
  intros O L N E.
  assert (F : exists f, rewrite_fn op QAll = Some f) by (destruct O as [->|[->|[->| ->]]]; cbn; eauto). destruct F as [f F].
  destruct (rewritten_rows op QAll s f L F (fun _ => N)) as [(m & k & R & M & K0)|[R Em]].
  - destruct (sq_rows s) as [|v vs] eqn:Rows.
    + assert (m = None) as -> by (destruct f, m as [a|]; cbn in M; tauto). rewrite (K0 eq_refl) in R. cbn in R.
      unfold quantified_subquery. rewrite R. destruct E as [E|[->|[->|E]]]; [congruence|cbn; tauto|cbn; tauto|].
      exfalso. unfold run_rewritten in R. rewrite F, E, Rows, L in R. discriminate.
    + rewrite <- Rows in *. assert (NE : sq_rows s <> []) by congruence. rewrite <- (all_by_extreme op f (sq_rows s) m x F M N NE).
      destruct (some_in _ N NE) as [c Ic]. destruct m as [a|]; [|exfalso; destruct f; cbn in M; now apply (M c)].
      unfold quantified_subquery. rewrite R. destruct O as [->|[->|[->| ->]]]; cbn [negb andb firstn hd]; rewrite ?compare_fn_spec; reflexivity.
  - unfold quantified_subquery. rewrite R, Em. destruct O as [->|[->|[->| ->]]]; cbn; tauto.
Qed.

(* ---- SELECT MIN(c), MAX(c) ---- *)

Lemma select_extreme_spec f column vs : (f = EMin -> column = true -> no_nulls vs) ->
  exists m, select_extreme cmp f column None vs = [m] /\ is_extreme f vs m.
Proof.
  intros N. unfold select_extreme. destruct column.
  - destruct f; [apply minmax_min; auto|apply minmax_max].
  - eexists. split; [reflexivity|apply agg_extreme].
Qed.
End Proofs.
