(* Pushdown and conversion of joins keep the rows of a plan: the recursion. *)
From Coq Require Import List ZArith Bool Arith Lia Sorting.Permutation.
From Verif Require Import Common.Bytes Key.Model Join.Model Join.Spec Join.Rows Join.Plan Join.PlanSpec Join.Push.
Import ListNotations.

Lemma about_app_l L R e : about L e -> about (L ++ R) e.
Proof. intros A t Ht. apply in_or_app. left. now apply A. Qed.
Lemma about_app_r L R e : about R e -> about (L ++ R) e.
Proof. intros A t Ht. apply in_or_app. right. now apply A. Qed.
Lemma about_swap L R e : about (L ++ R) e -> about (R ++ L) e.
Proof. intros A t Ht. apply in_or_app. apply A in Ht. apply in_app_or in Ht. tauto. Qed.
Lemma contains_swap L R e : contains (L ++ R) e = contains (R ++ L) e.
Proof. apply Bool.eq_iff_eq_true. rewrite !contains_about. split; apply about_swap. Qed.
Lemma reads_one L R e : (forall t, In t L -> ~ In t R) -> reads e -> about L e -> about R e -> False.
Proof. intros A Rd H1 H2. unfold reads in Rd. destruct (tuple_ids e) as [|t q] eqn:E; [congruence|]. assert (In t (tuple_ids e)) by (rewrite E; now left). eapply A; eauto. Qed.

(* the conditions that count for a conversion *)
Definition strong (ids : list nat) (es : list expr) : list expr := filter (fun e => contains ids e && negb (contains_null_function e)) es.
Lemma strong_in ids es e : In e (strong ids es) <-> In e es /\ about ids e /\ ~ null_aware e.
Proof.
  unfold strong. rewrite filter_In, andb_true_iff, negb_true_iff, contains_about, <- null_aware_spec. rewrite <- Bool.not_true_iff_false. reflexivity.
Qed.
Lemma strong_app ids a b : strong ids (a ++ b) = strong ids a ++ strong ids b.
Proof. unfold strong. apply filter_app. Qed.
Lemma strong_implies ids es r : all_true es r = true -> all_true (strong ids es) r = true.
Proof. rewrite !all_true_in. intros A e He. apply strong_in in He. now apply A. Qed.
Lemma strong_mono A B es r : (forall t, In t A -> In t B) -> all_true (strong B es) r = true -> all_true (strong A es) r = true.
Proof. intros S0. rewrite !all_true_in. intros T e He. apply T. apply strong_in in He as (? & X & ?). apply strong_in. repeat split; auto. intros t Ht. auto. Qed.
Lemma strong_none ids on : none_about ids on -> strong ids on = [].
Proof.
  intros N. unfold strong. apply filter_none. intros e He. destruct (contains ids e) eqn:C; [|reflexivity]. cbn. apply contains_about in C.
  apply negb_false_iff. apply null_aware_spec. now apply N.
Qed.

(* ---- what the loops find ---- *)

Definition rejecting (O I : list nat) (e : expr) : Prop := ~ null_aware e /\ (about I e \/ about (O ++ I) e /\ ~ about O e /\ contains_or e = false).

Lemma nf_false e : negb (contains_null_function e) = true <-> ~ null_aware e.
Proof. rewrite negb_true_iff, <- null_aware_spec, <- Bool.not_true_iff_false. reflexivity. Qed.
Lemma contains_false ids e : contains ids e = false <-> ~ about ids e.
Proof. rewrite <- contains_about, <- Bool.not_true_iff_false. reflexivity. Qed.

Lemma rejects_found O I es : rejects_nulls O I es = true -> exists e, In e es /\ rejecting O I e.
Proof.
  induction es as [|e q IH]; cbn [rejects_nulls]; [discriminate|]. intros E.
  destruct (contains O e) eqn:CO; [destruct (IH E) as (x & Hx & X); exists x; split; [now right|exact X]|].
  destruct (contains I e && negb (contains_null_function e)) eqn:C1.
  - apply andb_true_iff in C1 as [C1 C2]. exists e. split; [now left|]. apply nf_false in C2. apply contains_about in C1. split; auto.
  - destruct (contains (O ++ I) e && negb (contains_null_function e) && negb (contains_or e)) eqn:C3.
    + apply andb_true_iff in C3 as [C3 C5]. apply andb_true_iff in C3 as [C3 C4]. exists e. split; [now left|]. apply nf_false in C4. apply contains_about in C3.
      apply contains_false in CO. apply negb_true_iff in C5. split; auto.
    + destruct (IH E) as (x & Hx & X). exists x. split; [now right|exact X].
Qed.
Lemma rejects_not_found O I es : (forall t, In t O -> ~ In t I) -> (forall e, In e es -> reads e) -> rejects_nulls O I es = false -> strong I es = [].
Proof.
  intros A. induction es as [|e q IH]; intros Rd; [reflexivity|]. cbn [rejects_nulls strong filter]. fold (strong I q). intros E.
  destruct (contains I e && negb (contains_null_function e)) eqn:C1.
  - destruct (contains O e) eqn:CO; [|discriminate]. exfalso. apply andb_true_iff in C1 as [C1 _]. apply contains_about in C1, CO.
    eapply reads_one; [exact A| |exact CO|exact C1]. apply Rd. now left.
  - apply IH; [intros; apply Rd; now right|]. destruct (contains O e); [exact E|].
    destruct (contains (O ++ I) e && negb (contains_null_function e) && negb (contains_or e)); [discriminate|exact E].
Qed.

Lemma flags_found O I es : forall fo fi, let (a, b) := full_flags O I es fo fi in
  (a = true -> fo = true \/ exists e, In e es /\ rejecting I O e) /\ (b = true -> fi = true \/ exists e, In e es /\ rejecting O I e).
Proof.
  induction es as [|e q IH]; intros fo fi; cbn [full_flags]; [auto|].
  destruct (contains O e && negb (contains_null_function e)) eqn:C1.
  - specialize (IH true fi). destruct (full_flags O I q true fi) as [a b]. destruct IH as [IHa IHb]. apply andb_true_iff in C1 as [C1 C2].
    apply contains_about in C1. apply nf_false in C2. split.
    + intros _. right. exists e. split; [now left|]. split; auto.
    + intros X. destruct (IHb X) as [Y|(x & Hx & Y)]; [auto|]. right. exists x. split; [now right|exact Y].
  - destruct (contains I e && negb (contains_null_function e)) eqn:C2.
    + specialize (IH fo true). destruct (full_flags O I q fo true) as [a b]. destruct IH as [IHa IHb]. apply andb_true_iff in C2 as [C2 C3].
      apply contains_about in C2. apply nf_false in C3. split.
      * intros X. destruct (IHa X) as [Y|(x & Hx & Y)]; [auto|]. right. exists x. split; [now right|exact Y].
      * intros _. right. exists e. split; [now left|]. split; auto.
    + destruct (negb (contains O e) && negb (contains I e) && contains (O ++ I) e && negb (contains_null_function e) && negb (contains_or e)) eqn:C3.
      * rewrite !andb_true_iff, nf_false, !negb_true_iff, !contains_false, contains_about in C3. destruct C3 as ((((X1 & X2) & X3) & X4) & X5).
        split; intros _; right; exists e; (split; [now left|]); split; auto. right. repeat split; auto. now apply about_swap.
      * specialize (IH fo fi). destruct (full_flags O I q fo fi) as [a b]. destruct IH as [IHa IHb]. split.
        -- intros X. destruct (IHa X) as [Y|(x & Hx & Y)]; [auto|]. right. exists x. split; [now right|exact Y].
        -- intros X. destruct (IHb X) as [Y|(x & Hx & Y)]; [auto|]. right. exists x. split; [now right|exact Y].
Qed.
Lemma flags_not_found O I es : (forall t, In t O -> ~ In t I) -> (forall e, In e es -> reads e) ->
  forall fo fi, let (a, b) := full_flags O I es fo fi in
  (fo = true -> a = true) /\ (fi = true -> b = true) /\ (a = false -> strong O es = []) /\ (b = false -> strong I es = []).
Proof.
  intros A. induction es as [|e q IH]; intros Rd fo fi; cbn [full_flags strong filter]; [auto|]. fold (strong I q). fold (strong O q).
  assert (Rq : forall e, In e q -> reads e) by (intros; apply Rd; now right). specialize (IH Rq).
  destruct (contains O e && negb (contains_null_function e)) eqn:C1.
  - specialize (IH true fi). destruct (full_flags O I q true fi) as [a b]. destruct IH as (I1 & I2 & I3 & I4). rewrite (I1 eq_refl) in *.
    repeat split; auto; [discriminate|]. intros X. destruct (contains I e && negb (contains_null_function e)) eqn:C2; [|auto].
    exfalso. apply andb_true_iff in C1 as [C1 _], C2 as [C2 _]. apply contains_about in C1, C2. eapply reads_one; [exact A| |exact C1|exact C2]. apply Rd. now left.
  - destruct (contains I e && negb (contains_null_function e)) eqn:C2.
    + specialize (IH fo true). destruct (full_flags O I q fo true) as [a b]. destruct IH as (I1 & I2 & I3 & I4). rewrite (I2 eq_refl) in *. repeat split; auto. discriminate.
    + destruct (negb (contains O e) && negb (contains I e) && contains (O ++ I) e && negb (contains_null_function e) && negb (contains_or e)).
      * repeat split; auto; discriminate.
      * specialize (IH fo fi). destruct (full_flags O I q fo fi). exact IH.
Qed.

(* ---- conversion ---- *)

Section Convert.
Variable n : nat.

Lemma plan_ids_small p : plan_ok n p -> forall t, In t (plan_ids p) -> t < n.
Proof.
  induction p as [t rs|es c IH|jt on l IHl r IHr]; cbn.
  - intros X u [<-|[]]. exact X.
  - intros [X _]. auto.
  - intros (A & B & _) t Ht. apply in_app_or in Ht as [Ht|Ht]; auto.
Qed.
Lemma convert_ids es p : plan_ids (convert_to_inner_join es p) = plan_ids p.
Proof. revert es. induction p as [t rs|cs c IH|jt on l IHl r IHr]; intros es; cbn; auto. now rewrite IHl, IHr. Qed.
Lemma convert_height es p : height (convert_to_inner_join es p) = height p.
Proof. revert es. induction p as [t rs|cs c IH|jt on l IHl r IHr]; intros es; cbn; auto. Qed.
Lemma convert_ok es p : plan_ok n p -> plan_ok n (convert_to_inner_join es p).
Proof.
  revert es. induction p as [t rs|cs c IH|jt on l IHl r IHr]; intros es; cbn; auto. rewrite !convert_ids.
  intros (A & B & C & D & E). repeat split; auto; try (apply D; assumption).
  unfold new_type. destruct jt; auto.
  - destruct (rejects_nulls _ _ _); auto.
  - destruct (rejects_nulls _ _ _); auto.
  - destruct (full_flags _ _ _ _ _) as [[] []]; tauto.
Qed.

Section At.
Variables (L R : list nat).
Hypothesis Apart : forall t, In t L -> ~ In t R.
Hypothesis Small : forall t, In t L \/ In t R -> t < n.
Variables (es on : list expr).
Hypothesis Ues : forall e, In e es -> usual e.

Let S0 := strong (L ++ R) es.
Lemma strong_es_L r : all_true S0 r = true -> all_true (strong L es) r = true.
Proof. apply strong_mono. intros t Ht. apply in_or_app. now left. Qed.
Lemma strong_es_R r : all_true S0 r = true -> all_true (strong R es) r = true.
Proof. apply strong_mono. intros t Ht. apply in_or_app. now right. Qed.

Lemma reject_left ls rs : (exists e, In e es /\ rejecting L R e) ->
  Permutation (filter (all_true S0) (left_join n L R (all_true on) ls rs)) (filter (all_true S0) (inner_join n L R (all_true on) ls rs)).
Proof.
  intros (e & He & NN & D). rewrite (perm_filter _ _ _ (left_join_split n L R (all_true on) ls rs)). rewrite filter_app.
  rewrite (filter_none _ (map _ _)); [now rewrite app_nil_r|]. intros x Hx. apply in_map_iff in Hx as (l & <- & _).
  apply Bool.not_true_iff_false. rewrite all_true_in. intros T. assert (X : is_true e (alone n L l) = true).
  { apply T. apply strong_in. repeat split; auto. destruct D as [D|[D _]]; [now apply about_app_r|exact D]. }
  rewrite (reject_alone n L R Apart) in X; auto. discriminate.
Qed.

(* the sides may change where their strong conditions do not hold *)
Lemma inner_sides ls ls' rs rs' :
  Permutation (filter (all_true (strong L (es ++ on))) ls') (filter (all_true (strong L (es ++ on))) ls) ->
  Permutation (filter (all_true (strong R (es ++ on))) rs') (filter (all_true (strong R (es ++ on))) rs) ->
  Permutation (filter (all_true S0) (inner_join n L R (all_true on) ls' rs')) (filter (all_true S0) (inner_join n L R (all_true on) ls rs)).
Proof.
  intros PL PR.
  assert (X : forall ls rs, filter (all_true S0) (inner_join n L R (all_true on) ls rs) =
            inner_join n L R (all_true (on ++ S0)) (filter (all_true (strong L (es ++ on))) ls) (filter (all_true (strong R (es ++ on))) rs)).
  { intros a b. apply inner_push; auto.
    - intros e He. apply strong_in in He. tauto.
    - intros e He. apply strong_in in He. tauto.
    - intros r. rewrite all_true_app. destruct (all_true on r) eqn:E1; [|reflexivity]. destruct (all_true S0 r) eqn:E2; [|reflexivity].
      rewrite !strong_app, !all_true_app, (strong_es_L r E2), (strong_es_R r E2), (strong_implies L on r E1), (strong_implies R on r E1). reflexivity. }
  rewrite !X. now apply inner_perm.
Qed.
Lemma left_sides ls ls' rs rs' : none_about L on -> strong R es = [] ->
  Permutation (filter (all_true (strong L (es ++ on))) ls') (filter (all_true (strong L (es ++ on))) ls) ->
  Permutation (filter (all_true (strong R (es ++ on))) rs') (filter (all_true (strong R (es ++ on))) rs) ->
  Permutation (filter (all_true S0) (left_join n L R (all_true on) ls' rs')) (filter (all_true S0) (left_join n L R (all_true on) ls rs)).
Proof.
  intros NA NR PL PR.
  assert (X : forall ls rs, filter (all_true S0) (left_join n L R (all_true on) ls rs) =
            filter (all_true S0) (left_join n L R (all_true on) (filter (all_true (strong L (es ++ on))) ls) (filter (all_true (strong R (es ++ on))) rs))).
  { intros a b. apply left_push; auto.
    - intros e He. apply strong_in in He. tauto.
    - intros e He. apply strong_in in He. tauto.
    - intros r. rewrite strong_app, NR. cbn [app]. destruct (all_true on r) eqn:E1; [|reflexivity]. now rewrite (strong_implies R on r E1).
    - intros r. rewrite strong_app, (strong_none L on NA), app_nil_r. destruct (all_true S0 r) eqn:E1; [|reflexivity]. now rewrite (strong_es_L r E1). }
  rewrite (X ls' rs'), (X ls rs). apply perm_filter. now apply left_perm.
Qed.
End At.

Lemma filter_swap_ids L R es (l : list row) : filter (all_true (strong (L ++ R) es)) l = filter (all_true (strong (R ++ L) es)) l.
Proof. unfold strong. erewrite (filter_ext _ (fun e => contains (R ++ L) e && _)); [reflexivity|]. intros e. cbn. now rewrite contains_swap. Qed.

Lemma convert_rows p : plan_ok n p -> forall es, (forall e, In e es -> usual e) ->
  Permutation (filter (all_true (strong (plan_ids p) es)) (rows n (convert_to_inner_join es p))) (filter (all_true (strong (plan_ids p) es)) (rows n p)).
Proof.
  induction p as [t rs|cs c IH|jt on l IHl r IHr]; intros Ok es Ues; [reflexivity|reflexivity|].
  pose proof (plan_ids_small _ Ok) as Sm. destruct Ok as (Okl & Okr & Apart & Uon & Side).
  assert (Small : forall t, In t (plan_ids l) \/ In t (plan_ids r) -> t < n) by (intros t Ht; apply Sm; cbn; apply in_or_app; exact Ht).
  assert (U2 : forall e, In e (es ++ on) -> usual e) by (intros e He; apply in_app_or in He as [He|He]; [auto|now apply Uon]).
  specialize (IHl Okl (es ++ on) U2). specialize (IHr Okr (es ++ on) U2).
  cbn [convert_to_inner_join rows plan_ids]. rewrite !convert_ids.
  set (L := plan_ids l) in *. set (R := plan_ids r) in *.
  set (ls := rows n l) in *. set (rs := rows n r) in *.
  set (ls' := rows n (convert_to_inner_join (es ++ on) l)) in *. set (rs' := rows n (convert_to_inner_join (es ++ on) r)) in *.
  assert (Apart' : forall t, In t R -> ~ In t L) by (intros t a b; exact (Apart t b a)).
  assert (Small' : forall t, In t R \/ In t L -> t < n) by (intros t Ht; apply Small; tauto).
  assert (Rd : forall e, In e es -> reads e) by (intros e He; now apply Ues).
  unfold new_type. destruct jt.
  - apply inner_sides; auto.
  - destruct (rejects_nulls L R es) eqn:E.
    + apply rejects_found in E. rewrite (reject_left L R Apart es on Ues ls rs E). apply inner_sides; auto.
    + apply rejects_not_found in E; auto. apply left_sides; auto.
  - unfold right_join. destruct (rejects_nulls R L es) eqn:E.
    + apply rejects_found in E. rewrite (filter_swap_ids L R es (left_join _ _ _ _ _ _)).
      rewrite (reject_left R L Apart' es on Ues rs ls E). rewrite <- (filter_swap_ids L R es (inner_join n R L _ _ _)).
      rewrite (perm_filter _ _ _ (inner_sym n R L Apart' (all_true on) rs ls)). apply inner_sides; auto.
    + apply rejects_not_found in E; auto. rewrite (filter_swap_ids L R es), (filter_swap_ids L R es (left_join n R L (all_true on) rs ls)). apply left_sides; auto.
  - destruct Side as [SL SR]. pose proof (flags_found L R es false false) as F. pose proof (flags_not_found L R es Apart Rd false false) as G.
    destruct (full_flags L R es false false) as [a b]. destruct F as [Fa Fb]. destruct G as (_ & _ & Ga & Gb).
    (* rows that are rejected *)
    assert (RL : b = true -> filter (all_true (strong (L ++ R) es)) (map (alone n L) (unmatched n L R (all_true on) ls rs)) = []).
    { intros X. destruct (Fb X) as [Y|(e & He & NN & D)]; [discriminate|]. apply filter_none. intros x Hx. apply in_map_iff in Hx as (y & <- & _).
      apply Bool.not_true_iff_false. rewrite all_true_in. intros T. assert (Z1 : is_true e (alone n L y) = true).
      { apply T. apply strong_in. repeat split; auto. destruct D as [D|[D _]]; [now apply about_app_r|exact D]. }
      rewrite (reject_alone n L R Apart) in Z1; auto. discriminate. }
    assert (RR : a = true -> filter (all_true (strong (L ++ R) es)) (map (alone n R) (unmatched n R L (all_true on) rs ls)) = []).
    { intros X. destruct (Fa X) as [Y|(e & He & NN & D)]; [discriminate|]. apply filter_none. intros x Hx. apply in_map_iff in Hx as (y & <- & _).
      apply Bool.not_true_iff_false. rewrite all_true_in. intros T. assert (Z1 : is_true e (alone n R y) = true).
      { apply T. apply strong_in. repeat split; auto. destruct D as [D|[D _]]; [now apply about_app_l|now apply about_swap]. }
      rewrite (reject_alone n R L Apart') in Z1; auto. discriminate. }
    pose proof (perm_filter (all_true (strong (L ++ R) es)) _ _ (full_split n L R Apart (all_true on) ls rs)) as FS. rewrite !filter_app in FS.
    destruct a, b.
    + rewrite RL, RR, !app_nil_r in FS by reflexivity. rewrite FS. apply inner_sides; auto.
    + rewrite RR, app_nil_r in FS by reflexivity. rewrite <- filter_app in FS. rewrite FS. rewrite <- (perm_filter _ _ _ (left_join_split n L R (all_true on) ls rs)).
      apply left_sides; auto.
    + rewrite RL in FS by reflexivity. cbn [app] in FS. rewrite <- filter_app in FS. rewrite FS.
      rewrite <- (perm_filter _ _ _ (right_split n L R Apart (all_true on) ls rs)). unfold right_join. rewrite (filter_swap_ids L R es), (filter_swap_ids L R es (left_join n R L (all_true on) rs ls)). apply left_sides; auto.
    + rewrite (strong_app L), (Ga eq_refl), (strong_none L on SL) in IHl. rewrite (strong_app R), (Gb eq_refl), (strong_none R on SR) in IHr.
      cbn [app] in IHl, IHr. rewrite !filter_true in IHl, IHr by reflexivity. apply perm_filter. now apply full_perm.
Qed.
Lemma convert_keeps p es : plan_ok n p -> (forall e, In e es -> usual e) ->
  Permutation (filter (all_true es) (rows n (convert_to_inner_join es p))) (filter (all_true es) (rows n p)).
Proof. intros Ok U. eapply filter_weaken; [|apply convert_rows; assumption]. intros x. apply strong_implies. Qed.

(* ---- pushdown ---- *)

Lemma rows_with_filter es p : rows n (with_filter es p) = filter (all_true es) (rows n p).
Proof. destruct es; [|reflexivity]. cbn. symmetry. now apply filter_true. Qed.
Lemma ids_with_filter es p : plan_ids (with_filter es p) = plan_ids p.
Proof. destruct es; reflexivity. Qed.

Lemma split_true (p : expr -> bool) es r : all_true es r = all_true (filter p es) r && all_true (filter (fun e => negb (p e)) es) r.
Proof.
  unfold all_true. induction es as [|e q IH]; cbn; [reflexivity|]. rewrite IH. destruct (p e); cbn; [now rewrite andb_assoc|].
  rewrite !andb_assoc. f_equal. apply andb_comm.
Qed.
Lemma split3_true (p q : expr -> bool) es r : all_true es r =
  all_true (filter p es) r && (all_true (filter (fun e => negb (p e) && q e) es) r && all_true (filter (fun e => negb (p e) && negb (q e)) es) r).
Proof.
  rewrite (split_true p). f_equal. rewrite (split_true q), !filter_filter. reflexivity.
Qed.
Lemma filter_all {A} (p : A -> bool) l : (forall x, In x l -> p x = true) -> filter p l = l.
Proof. induction l; cbn; intros E; [reflexivity|]. rewrite E by now left. f_equal. apply IHl. intros; apply E; now right. Qed.
Lemma no_correlated O I es : (forall e, In e es -> about (O ++ I) e) ->
  filter (correlated O I) es = [] /\ filter (fun e => negb (correlated O I e)) es = es.
Proof.
  intros A. assert (X : forall e, In e es -> correlated O I e = false).
  { intros e He. unfold correlated. destruct (tuple_ids e); [reflexivity|]. apply negb_false_iff. apply contains_about. auto. }
  split; [now apply filter_none|]. apply filter_all. intros e He. now rewrite X.
Qed.

Lemma pushdown_keeps : forall k p under es, height p <= k -> plan_ok n p -> (forall e, In e es -> usual e /\ about (plan_ids p) e) ->
  let (p', rest) := predicate_pushdown k under p es in
  plan_ids p' = plan_ids p /\ Permutation (filter (all_true rest) (rows n p')) (filter (all_true es) (rows n p)).
Proof.
  induction k as [|k IH]; intros p under es Hh Ok U; [destruct p; cbn in Hh; lia|]. cbn [predicate_pushdown].
  destruct p as [t rs|cs c|jt on l r].
  - destruct under; [split; reflexivity|]. rewrite ids_with_filter, rows_with_filter. split; [reflexivity|]. rewrite filter_true; reflexivity.
  - destruct Ok as [Okc Uc]. specialize (IH c true (es ++ cs)). destruct (predicate_pushdown k true c (es ++ cs)) as [c' rest]. cbn in Hh.
    destruct IH as [E P]; [lia|exact Okc| |].
    + intros e He. apply in_app_or in He as [He|He]; [now apply U|now apply Uc].
    + split; [exact E|]. cbn [rows]. rewrite (filter_true (all_true [])) by reflexivity. rewrite P, filter_filter.
      erewrite filter_ext; [reflexivity|]. intros x. cbn. rewrite all_true_app. apply andb_comm.
  - pose proof (convert_keeps (JoinOf jt on l r) es Ok (fun e He => proj1 (U e He))) as C. pose proof (convert_ok es _ Ok) as Ok'.
    pose proof (convert_ids es (JoinOf jt on l r)) as Ei. pose proof (convert_height es (JoinOf jt on l r)) as Eh.
    destruct (convert_to_inner_join es (JoinOf jt on l r)) as [?|?|jt' on' l' r'] eqn:EC; [discriminate EC|discriminate EC|].
    cbn [plan_ids] in Ei. cbn [height] in Hh, Eh. pose proof (plan_ids_small _ Ok') as Sm.
    destruct Ok' as (Okl & Okr & Apart & Uon & Side).
    set (L := plan_ids l') in *. set (R := plan_ids r') in *.
    assert (Small : forall t, In t L \/ In t R -> t < n) by (intros t Ht; apply Sm; cbn; apply in_or_app; exact Ht).
    assert (Apart' : forall t, In t R -> ~ In t L) by (intros t a b; exact (Apart t b a)).
    assert (Small' : forall t, In t R \/ In t L -> t < n) by (intros t Ht; apply Small; tauto).
    assert (Ue : forall e, In e es -> usual e /\ about (L ++ R) e) by (intros e He; rewrite Ei; now apply U).
    (* pushing to a side *)
    assert (PushL : forall xs, (forall e, In e xs -> usual e /\ about L e) -> let (q, rest) := predicate_pushdown k false l' xs in
              plan_ids (with_filter rest q) = L /\ Permutation (rows n (with_filter rest q)) (filter (all_true xs) (rows n l'))).
    { intros xs X. specialize (IH l' false xs ltac:(lia) Okl X). destruct (predicate_pushdown k false l' xs). rewrite ids_with_filter, rows_with_filter. exact IH. }
    assert (PushR : forall xs, (forall e, In e xs -> usual e /\ about R e) -> let (q, rest) := predicate_pushdown k false r' xs in
              plan_ids (with_filter rest q) = R /\ Permutation (rows n (with_filter rest q)) (filter (all_true xs) (rows n r'))).
    { intros xs X. specialize (IH r' false xs ltac:(lia) Okr X). destruct (predicate_pushdown k false r' xs). rewrite ids_with_filter, rows_with_filter. exact IH. }
    clear IH. destruct (no_correlated L R es (fun e He => proj2 (Ue e He))) as [NC1 NC2].
    destruct (no_correlated R L es (fun e He => about_swap _ _ _ (proj2 (Ue e He)))) as [NC3 NC4].
    (* an inner join, either side as the outer one *)
    assert (FU : forall ids p es', (forall e, In e es' -> usual e /\ about (L ++ R) e) -> (forall e, p e = true -> contains ids e = true) -> forall e, In e (filter p es') -> usual e /\ about ids e).
    { intros ids p es' X Y e He. apply filter_In in He as [He Z1]. split; [now apply X|]. apply contains_about. now apply Y. }
    assert (PLus : forall ids a b, (forall e, In e a -> usual e /\ about ids e) -> (forall e, In e b -> usual e /\ about ids e) -> forall e, In e (a ++ b) -> usual e /\ about ids e).
    { intros ids a b X Y e He. apply in_app_or in He as [He|He]; auto. }
    assert (A2 : forall ids ids', forall e, negb (contains ids e) && contains ids' e = true -> contains ids' e = true) by (intros ids ids' e X; now apply andb_true_iff in X).
    destruct jt'; cbn [distribute].
    + unfold right_is_outer. destruct (match jt with JRight => true | _ => false end) eqn:EJ.
      * replace (match jt with JRight => true | _ => false end) with true. rewrite NC3, NC4.
        specialize (PushR (filter (contains R) on' ++ filter (contains R) es) ltac:(apply PLus; apply FU; auto)).
        specialize (PushL (filter (fun e => negb (contains R e) && contains L e) on' ++ filter (fun e => negb (contains R e) && contains L e) es) ltac:(apply PLus; apply FU; eauto)).
        destruct (predicate_pushdown k false r' _) as [q2 x2]. destruct (predicate_pushdown k false l' _) as [q1 x1].
        destruct PushL as [I1 P1]. destruct PushR as [I2 P2]. cbn [plan_ids rows]. rewrite I1, I2. split; [exact Ei|].
        rewrite (filter_true (all_true [])) by reflexivity. rewrite <- C. cbn [rows]. fold L R.
        rewrite (inner_perm n L R _ _ _ _ _ P1 P2). erewrite <- inner_push; [reflexivity|exact Apart|exact Small| | |].
        -- intros e He. apply in_app_or in He as [He|He]; apply filter_In in He as [_ He]; rewrite ?andb_true_iff in He; apply contains_about; tauto.
        -- intros e He. apply in_app_or in He as [He|He]; apply filter_In in He as [_ He]; rewrite ?andb_true_iff in He; apply contains_about; tauto.
        -- intros x. rewrite (split3_true (contains R) (contains L) on'), (split3_true (contains R) (contains L) es), !all_true_app.
           repeat match goal with |- context [all_true ?l x] => generalize (all_true l x); intros ? end. repeat match goal with b : bool |- _ => destruct b end; reflexivity.
      * replace (match jt with JRight => true | _ => false end) with false. rewrite NC1, NC2.
        specialize (PushL (filter (contains L) on' ++ filter (contains L) es) ltac:(apply PLus; apply FU; auto)).
        specialize (PushR (filter (fun e => negb (contains L e) && contains R e) on' ++ filter (fun e => negb (contains L e) && contains R e) es) ltac:(apply PLus; apply FU; eauto)).
        destruct (predicate_pushdown k false l' _) as [q1 x1]. destruct (predicate_pushdown k false r' _) as [q2 x2].
        destruct PushL as [I1 P1]. destruct PushR as [I2 P2]. cbn [plan_ids rows]. rewrite I1, I2. split; [exact Ei|].
        rewrite (filter_true (all_true [])) by reflexivity. rewrite <- C. cbn [rows]. fold L R.
        rewrite (inner_perm n L R _ _ _ _ _ P1 P2). erewrite <- inner_push; [reflexivity|exact Apart|exact Small| | |].
        -- intros e He. apply in_app_or in He as [He|He]; apply filter_In in He as [_ He]; rewrite ?andb_true_iff in He; apply contains_about; tauto.
        -- intros e He. apply in_app_or in He as [He|He]; apply filter_In in He as [_ He]; rewrite ?andb_true_iff in He; apply contains_about; tauto.
        -- intros x. rewrite (split3_true (contains L) (contains R) on'), (split3_true (contains L) (contains R) es), !all_true_app.
           repeat match goal with |- context [all_true ?l x] => generalize (all_true l x); intros ? end. repeat match goal with b : bool |- _ => destruct b end; reflexivity.
    + assert (ER : right_is_outer jt JLeft = false).
      { destruct jt; try reflexivity. cbn [convert_to_inner_join] in EC. injection EC as EC _ _ _. unfold new_type in EC. destruct (rejects_nulls _ _ _); discriminate. }
      rewrite ER, NC2.
      specialize (PushL (filter (contains L) es) ltac:(apply FU; auto)). specialize (PushR (filter (contains R) on') ltac:(apply FU; auto)).
      destruct (predicate_pushdown k false l' _) as [q1 x1]. destruct (predicate_pushdown k false r' _) as [q2 x2].
      destruct PushL as [I1 P1]. destruct PushR as [I2 P2]. cbn [plan_ids rows]. rewrite I1, I2. split; [exact Ei|]. rewrite <- C. cbn [rows]. fold L R.
      rewrite (perm_filter _ _ _ (left_perm n L R _ _ _ _ _ P1 P2)). erewrite <- left_push; [reflexivity|exact Apart|exact Small| | | |].
      * intros e He. apply filter_In in He as [_ He]. now apply contains_about.
      * intros e He. apply filter_In in He as [_ He]. now apply contains_about.
      * intros x. rewrite (split_true (contains R) on'). apply andb_comm.
      * intros x. rewrite (split_true (contains L) es). apply andb_comm.
    + assert (ER : right_is_outer jt JRight = true) by (destruct jt; reflexivity). rewrite ER, NC4.
      specialize (PushR (filter (contains R) es) ltac:(apply FU; auto)). specialize (PushL (filter (contains L) on') ltac:(apply FU; auto)).
      destruct (predicate_pushdown k false r' _) as [q2 x2]. destruct (predicate_pushdown k false l' _) as [q1 x1].
      destruct PushL as [I1 P1]. destruct PushR as [I2 P2]. cbn [plan_ids rows]. rewrite I1, I2. split; [exact Ei|]. rewrite <- C. cbn [rows]. fold L R. unfold right_join.
      rewrite (perm_filter _ _ _ (left_perm n R L _ _ _ _ _ P2 P1)). erewrite <- left_push; [reflexivity|exact Apart'|exact Small'| | | |].
      * intros e He. apply filter_In in He as [_ He]. now apply contains_about.
      * intros e He. apply filter_In in He as [_ He]. now apply contains_about.
      * intros x. rewrite (split_true (contains L) on'). apply andb_comm.
      * intros x. rewrite (split_true (contains R) es). apply andb_comm.
    + split; [exact Ei|exact C].
Qed.

Theorem pushdown_rows p : plan_ok n p -> Permutation (rows n (pushdown p)) (rows n p).
Proof.
  intros Ok. unfold pushdown. pose proof (pushdown_keeps (height p) p false [] (le_n _) Ok ltac:(intros e [])) as P.
  destruct (predicate_pushdown (height p) false p []) as [p' rest]. destruct P as [_ P]. rewrite rows_with_filter, P. rewrite filter_true; reflexivity.
Qed.
End Convert.
