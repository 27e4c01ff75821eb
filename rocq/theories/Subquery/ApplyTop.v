(* Correlated predicates select what SQL says. *)
From Coq Require Import List ZArith Bool Arith Lia Sorting.Permutation.
From Verif Require Import Common.Bytes Common.KV Key.Model Key.Spec Join.Model Join.Spec Join.Keys Join.Exec Join.Rows.
From Verif Require Import Subquery.Spec Subquery.Model Subquery.Proofs Subquery.ApplyModel Subquery.ApplySpec Subquery.ApplyExec Subquery.ApplyHash Subquery.ApplyNode.
Import ListNotations.

Section Top.
Variables (A : apply) (in_eq : coltype -> coltype -> value -> value -> bool) (on : row -> bool) (sub : row -> list row) (inner outer : list row) (src : source).
Notation n := (ap_size A). Notation L := (ap_outer A). Notation R := (ap_inner A). Notation cs := (ap_conds A).
Hypothesis Ok : inputs_ok (hashes A) in_eq n L R cs sub inner outer.
Hypothesis On : decides on cs.
Hypothesis Sup : supplies in_eq A sub inner outer src.
Hypothesis Par : parent_ok A.

Lemma hashes_one_row : hashes A = true -> ap_one_row A = false.
Proof. unfold hashes. destruct (apairs A); [discriminate|]. now destruct (ap_one_row A). Qed.

Lemma run_empty caps : outer = [] -> match arun A src outer caps with Unfinished => ~ enough caps 0 | Error => False | Rows out => out = [] end.
Proof. intros ->. unfold arun. cbn [aopen]. destruct caps; cbn; [intros [X _]; cbn in X; lia|reflexivity]. Qed.

Lemma enough_mono caps a b : (a <= b)%nat -> enough caps b -> enough caps a.
Proof. intros Le [X Y]. split; [lia|exact Y]. Qed.

(* for semi and anti joins, and outer joins of a certain form *)
Definition left_ok : Prop := ap_type A = ALeft -> (hashes A = false -> ap_one_row A = true \/ forall o, (length (src_row src o) <= 1)%nat) /\ (hashes A = true -> only_keys L R cs).
Lemma apply_run caps : left_ok ->
  match arun A src outer caps with
  | Unfinished => ~ enough caps (Nat.max (2 * length outer) (length (flat_map (result A on sub) outer)))
  | Error => ap_one_row A = true /\ exists o, In o outer /\ overfull A src o
  | Rows out => good A on sub outer out /\ (ap_limit A = None -> forall o, In o outer -> ~ overfull A src o)
  end.
Proof.
  intros LO. destruct Ok as [Apart Small Ex Ha].
  destruct (list_eq_dec (fun x y : row => ltac:(repeat decide equality)) outer []) as [E|NE].
  { pose proof (run_empty caps E) as X. rewrite E in *. destruct (arun A src [] caps); [|contradiction|intros C; apply X; eapply enough_mono; [|exact C]; lia].
    subst out. split; [exists []; split; [unfold shown, outer_columns; destruct (ap_type A); constructor|auto]|intros _ o []]. }
  assert (HH : hashes A = true \/ hashes A = false) by (destruct (hashes A); auto). destruct HH as [HA|HA].
  - assert (NO : forall o, ~ overfull A src o) by (intros o [X _]; rewrite (hashes_one_row HA) in X; discriminate).
    destruct (ap_type A) eqn:J.
    + destruct (ap_parent A) as [k|] eqn:PA.
      * pose proof (loop_run A in_eq on sub inner outer src Apart Small On Sup Ha k caps HA J PA (Par k PA) NE) as X.
        destruct (arun A src outer caps); [split; [exact X|auto]|contradiction|intros C; apply X; eapply enough_mono; [|exact C]; lia].
      * pose proof (outer_run A in_eq on sub inner outer src Apart Small On Sup Ha caps HA J PA NE) as X.
        destruct (arun A src outer caps); [split; [exact X|auto]|contradiction|intros C; apply X; eapply enough_mono; [|exact C]; lia].
    + pose proof (inner_run A in_eq on sub inner outer src Apart Small On Sup Ha caps HA ltac:(congruence) ltac:(congruence) NE) as X.
      destruct (arun A src outer caps); [split; [exact X|auto]|contradiction|intros C; apply X; eapply enough_mono; [|exact C]; lia].
    + assert (LK : ap_type A = ALeft -> only_keys L R cs) by (intros; apply LO; auto).
      pose proof (inner_run A in_eq on sub inner outer src Apart Small On Sup Ha caps HA ltac:(congruence) LK NE) as X.
      destruct (arun A src outer caps); [split; [exact X|auto]|contradiction|intros C; apply X; eapply enough_mono; [|exact C]; lia].
  - assert (LK : ap_type A = ALeft -> ap_one_row A = true \/ forall o, (length (src_row src o) <= 1)%nat) by (intros; apply LO; auto).
    pose proof (nested_run A in_eq on sub inner outer src Apart Small On Sup Ex Ha caps HA LK NE) as X.
    destruct (arun A src outer caps); [exact X| |intros C; apply X; eapply enough_mono; [|exact C]; lia].
    split; [|exact X]. destruct X as (o & _ & Y & _). exact Y.
Qed.

Lemma up_to_good out : good A on sub outer out -> up_to (ap_limit A) (shown A out) (flat_map (result A on sub) outer).
Proof. intros (rest & P & Q). exists rest. split; [exact P|]. rewrite shown_length. exact Q. Qed.

Lemma flat_semi : ap_type A = ASemi -> flat_map (result A on sub) outer = outer_columns n L (semi n L R on sub outer).
Proof. intros J. unfold result, semi, outer_columns. rewrite J. clear. induction outer as [|o q IH]; cbn; [auto|]. destruct (has_partner n L R on sub o); cbn; now rewrite IH. Qed.
Lemma flat_anti : ap_type A = AAnti -> flat_map (result A on sub) outer = outer_columns n L (anti n L R on sub outer).
Proof. intros J. unfold result, anti, outer_columns. rewrite J. clear. induction outer as [|o q IH]; cbn; [auto|]. destruct (has_partner n L R on sub o); cbn; now rewrite IH. Qed.
Lemma flat_left : ap_type A = ALeft -> flat_map (result A on sub) outer = padded n L R on sub outer.
Proof. intros J. unfold result, padded. now rewrite J. Qed.
Lemma short : ap_type A <> ALeft -> (length (flat_map (result A on sub) outer) <= length outer)%nat.
Proof.
  intros J. clear Ok Sup. induction outer as [|o q IH]; cbn [flat_map length]; [lia|]. rewrite app_length. enough (length (result A on sub o) <= 1)%nat by lia.
  unfold result. destruct (ap_type A); [| |contradiction]; destruct (has_partner n L R on sub o); cbn; lia.
Qed.

Theorem semi_top caps : ap_type A = ASemi ->
  match arun A src outer caps with
  | Unfinished => ~ enough caps (2 * length outer)
  | Error => ap_one_row A = true
  | Rows out => up_to (ap_limit A) (outer_columns n L out) (outer_columns n L (semi n L R on sub outer))
  end.
Proof.
  intros J. pose proof (apply_run caps ltac:(unfold left_ok; congruence)) as X. destruct (arun A src outer caps).
  - destruct X as [X _]. apply up_to_good in X. rewrite flat_semi in X by exact J. unfold shown in X. now rewrite J in X.
  - tauto.
  - pose proof (short ltac:(congruence)). rewrite Nat.max_l in X by lia. exact X.
Qed.
Theorem anti_top caps : ap_type A = AAnti ->
  match arun A src outer caps with
  | Unfinished => ~ enough caps (2 * length outer)
  | Error => ap_one_row A = true
  | Rows out => up_to (ap_limit A) out (outer_columns n L (anti n L R on sub outer))
  end.
Proof.
  intros J. pose proof (apply_run caps ltac:(unfold left_ok; congruence)) as X. destruct (arun A src outer caps).
  - destruct X as [X _]. apply up_to_good in X. rewrite flat_anti in X by exact J. unfold shown in X. now rewrite J in X.
  - tauto.
  - pose proof (short ltac:(congruence)). rewrite Nat.max_l in X by lia. exact X.
Qed.
Theorem left_top caps : ap_type A = ALeft -> (hashes A = false -> ap_one_row A = true \/ forall o, (length (src_row src o) <= 1)%nat) -> (hashes A = true -> only_keys L R cs) ->
  match arun A src outer caps with
  | Unfinished => ~ enough caps (2 * length outer + length (padded n L R on sub outer))
  | Error => ap_one_row A = true
  | Rows out => up_to (ap_limit A) out (padded n L R on sub outer)
  end.
Proof.
  intros J K1 K2. pose proof (apply_run caps ltac:(unfold left_ok; auto)) as X. destruct (arun A src outer caps).
  - destruct X as [X _]. apply up_to_good in X. rewrite flat_left in X by exact J. unfold shown in X. now rewrite J in X.
  - tauto.
  - intros C. apply X. rewrite flat_left by exact J. eapply enough_mono; [|exact C]. lia.
Qed.

(* ---- more than one row ---- *)

Lemma agrees_pairs o i : plain cs -> (Forall (pair_equal o i) (apairs A) <-> agrees L R cs o i).
Proof.
  destruct Ok as [Apart _ _ _]. intros Pl. unfold apairs. rewrite Forall_forall. split.
  - intros K a b l r Ac Hc. apply (K (l, r)). unfold pairs_of, key_pairs. apply in_flat_map. exists (CEq a b). split; [exact Hc|].
    cbn [equal_condition]. apply slot_pair_across in Ac; [|exact Apart]. rewrite Ac. now left.
  - intros K [l r] Hp. unfold pairs_of, key_pairs in Hp. apply in_flat_map in Hp as (c & Hc & Hp).
    unfold plain in Pl. rewrite Forall_forall in Pl. specialize (Pl c Hc).
    destruct c as [a b|xs|f]; [|contradiction|cbn in Hp; contradiction]. cbn [equal_condition] in Hp.
    destruct (slot_pair L R a b) as [[l' r']|] eqn:E; [|contradiction]. destruct Hp as [[= -> ->]|[]].
    apply slot_pair_across in E; [|exact Apart]. exact (K a b l r E Hc).
Qed.
Lemma one_of_two {T} (f : T -> bool) l : (exists x i y j z, l = x ++ i :: y ++ j :: z /\ f i = true /\ f j = true) -> (1 < length (filter f l))%nat.
Proof.
  intros (x & i & y & j & z & -> & Fi & Fj). rewrite filter_app, app_length. cbn. rewrite Fi. cbn. rewrite filter_app, app_length. cbn. rewrite Fj. cbn. lia.
Qed.
Lemma overfull_several o : hashes A = false -> plain cs -> In o outer -> ap_one_row A = true -> (overfull A src o <-> several L R cs sub o).
Proof.
  intros HA Pl Ho One. pose proof (in_values _ _ _ _ _ _ _ _ _ Ok HA) as EX. unfold overfull, several.
  rewrite (Permutation_length (sup_row _ _ _ _ _ _ Sup o Ho)). split.
  - intros [_ X]. apply two_of in X as (x & i & y & j & z & E & Pi & Pj). exists x, i, y, j, z.
    split; [exact E|]. split; apply agrees_pairs; auto; eapply in_pass_one; eauto.
  - intros (x & i & y & j & z & E & Pi & Pj). split; [exact One|]. apply one_of_two. exists x, i, y, j, z.
    split; [exact E|]. split; eapply in_pass_one; eauto; now apply agrees_pairs.
Qed.
Theorem error_top caps : left_ok -> plain cs -> ap_limit A = None -> enough caps (2 * length outer + length (padded n L R on sub outer)) ->
  (arun A src outer caps = Error <-> ap_one_row A = true /\ exists o, In o outer /\ several L R cs sub o).
Proof.
  intros LO Pl Lim En. pose proof (apply_run caps LO) as X.
  assert (HN : ap_one_row A = true -> hashes A = false) by (intros O1; destruct (hashes A) eqn:HA; [rewrite (hashes_one_row HA) in O1; discriminate|reflexivity]).
  destruct (arun A src outer caps) eqn:E.
  - split; [discriminate|]. intros (O1 & o & Ho & Sv). destruct X as [_ X]. exfalso. apply (X Lim o Ho). apply overfull_several; auto.
  - split; [|reflexivity]. intros _. destruct X as (O1 & o & Ho & Ov). split; [exact O1|]. exists o. split; [exact Ho|]. apply overfull_several; auto.
  - exfalso. apply X. eapply enough_mono; [|exact En]. destruct (ap_type A) eqn:J; [| |rewrite flat_left by exact J; lia]; pose proof (short ltac:(congruence)); lia.
Qed.
End Top.

(* ---- the predicates ---- *)

Lemma side_value r o : op_value r o = side r o.
Proof. destruct o; reflexivity. Qed.
Lemma compare_cond_holds op x e t r : type_of x = t -> type_of e = t ->
  (holds r (compare_cond op x e) <-> compare3 (value_compare t) op (side r x) (side r e) = Some true).
Proof.
  intros Tx Te. destruct op; cbn [compare_cond holds].
  2-6: rewrite compare_fn_spec, !side_value; replace (op_type x) with t by (rewrite <- Tx; destruct x; reflexivity); reflexivity.
  rewrite Tx, Te. unfold equal_values. rewrite ctype_eqb_refl. unfold compare3. split.
  - intros (v & w & -> & -> & E). now rewrite E.
  - destruct (side r x) as [v|], (side r e) as [w|]; try discriminate. cbn. intros E. exists v, w. repeat split; auto. destruct (value_compare t v w); congruence.
Qed.
Lemma anti_op_spec {V} (cmp : V -> V -> comparison) op x v : x <> None -> v <> None ->
  (compare3 cmp (anti_op op) x v = Some true <-> compare3 cmp op x v <> Some true).
Proof. intros Nx Nv. destruct x as [a|]; [|contradiction]. destruct v as [b|]; [|contradiction]. cbn. destruct op, (cmp a b); cbn; split; congruence. Qed.
Lemma is_true_iff b : is_true b = true <-> b = Some true.
Proof. destruct b as [[]|]; cbn; split; congruence. Qed.

Section Predicate.
Variables (n : nat) (L R : list nat) (sub : row -> list row) (p : predicate) (x e : operand) (truth : row -> option bool) (moved : list jcond).
Variables (cond on : row -> bool) (t : coltype).
Hypothesis Cond : decides cond moved.
Hypothesis On : decides on (apply_conds p x e truth moved).
Hypothesis Rx : reads_outer n L R x.
Hypothesis Tx : type_of x = t.
Hypothesis Te : type_of e = t.

Lemma partner_iff o : has_partner n L R on sub o = true <->
  exists i, In i (sub o) /\ holds (glue n L R o i) (snd (fst (plan_predicate p x e truth))) /\ cond (glue n L R o i) = true.
Proof.
  unfold has_partner. rewrite existsb_exists. split; intros (i & Hi & X); exists i; (split; [exact Hi|]).
  - apply On in X. inversion X as [|? ? X1 X2]. subst. split; [exact X1|]. now apply Cond.
  - apply On. destruct X as [X1 X2]. constructor; [exact X1|]. now apply Cond.
Qed.
Lemma values_in o v : In v (sub_values n L R cond sub e o) <-> exists i, In i (sub o) /\ cond (glue n L R o i) = true /\ v = side (glue n L R o i) e.
Proof.
  unfold sub_values. rewrite in_map_iff. split.
  - intros (i & E & Hi). apply filter_In in Hi as [Hi C]. exists i. auto.
  - intros (i & Hi & C & E). exists i. split; [auto|]. apply filter_In. auto.
Qed.
Lemma values_nil o : sub_values n L R cond sub e o = [] <-> forall i, In i (sub o) -> cond (glue n L R o i) = false.
Proof.
  split.
  - intros E i Hi. destruct (cond (glue n L R o i)) eqn:C; [|reflexivity]. exfalso.
    assert (X : In (side (glue n L R o i) e) (sub_values n L R cond sub e o)) by (apply values_in; eauto). now rewrite E in X.
  - intros K. destruct (sub_values n L R cond sub e o) as [|v q] eqn:E; [reflexivity|]. exfalso.
    assert (X : In v (sub_values n L R cond sub e o)) by (rewrite E; now left). apply values_in in X as (i & Hi & C & _). rewrite K in C by exact Hi. discriminate.
Qed.
Notation xv o := (side (alone n L o) x).
Notation vs o := (sub_values n L R cond sub e o).

Lemma partner_any op o : snd (fst (plan_predicate p x e truth)) = compare_cond op x e ->
  (has_partner n L R on sub o = true <-> any3 (value_compare t) op (xv o) (vs o) = Some true).
Proof.
  intros E. rewrite partner_iff, E, any3_true. split.
  - intros (i & Hi & X & C). exists (side (glue n L R o i) e). split; [apply values_in; eauto|]. apply compare_cond_holds with (t := t) in X; auto. now rewrite Rx in X.
  - intros (v & Hv & X). apply values_in in Hv as (i & Hi & C & ->). exists i. split; [exact Hi|]. split; [|exact C]. apply compare_cond_holds with (t := t); auto. now rewrite Rx.
Qed.

Definition keeps (o : row) : bool := match apply_type p with ASemi => has_partner n L R on sub o | _ => negb (has_partner n L R on sub o) end.
Lemma keeps_spec o : covered p (xv o) (vs o) -> (p = PExists \/ p = PNotExists -> forall r, truth r = Some true) ->
  keeps o = accepts p t (xv o) (vs o).
Proof.
  intros C T. pose proof (fun op => partner_any op o) as PA. pose proof (partner_iff o) as PI. apply Bool.eq_iff_eq_true. unfold keeps. destruct p as [| |op|op|op| |] eqn:P; cbn [apply_type plan_predicate fst snd accepts covered] in *.
  - rewrite is_true_iff. now apply PA.
  - rewrite is_true_iff, negb_true_iff, <- not_true_iff_false, (PA OpEq) by reflexivity. destruct C as [Nx Nv].
    rewrite any3_true, all3_true. unfold no_nulls in Nv. rewrite Forall_forall in Nv. split.
    + intros K v Hv. specialize (Nv v Hv). destruct (compare3 (value_compare t) OpNe (xv o) v) as [[]|] eqn:E; [reflexivity| |].
      * exfalso. apply K. exists v. split; [exact Hv|]. apply (anti_op_spec (value_compare t) OpNe); auto. congruence.
      * destruct (xv o), v; try discriminate; contradiction.
    + intros K (v & Hv & X). specialize (K v Hv). apply (anti_op_spec (value_compare t) OpNe) in X; auto.
  - rewrite is_true_iff. now apply PA.
  - rewrite is_true_iff, negb_true_iff, <- not_true_iff_false, (PA (anti_op op)) by reflexivity. destruct C as [Nx Nv].
    rewrite any3_true, all3_true. unfold no_nulls in Nv. rewrite Forall_forall in Nv. split.
    + intros K v Hv. specialize (Nv v Hv). destruct (compare3 (value_compare t) op (xv o) v) as [[]|] eqn:E; [reflexivity| |].
      * exfalso. apply K. exists v. split; [exact Hv|]. apply anti_op_spec; auto. congruence.
      * destruct (xv o), v; try discriminate; contradiction.
    + intros K (v & Hv & X). specialize (K v Hv). apply anti_op_spec in X; auto.
  - rewrite (PA op) by reflexivity. destruct (vs o) as [|v [|w q]]; cbn [scalar any3 fold_right] in *; [| |cbn in C; lia].
    + destruct (xv o); cbn; split; congruence.
    + rewrite is_true_iff, or3_true. split; [intros [X|X]; [exact X|discriminate]|auto].
  - rewrite PI. cbn [plan_predicate fst snd holds]. specialize (T (or_introl eq_refl)). destruct (vs o) as [|v q] eqn:E.
    + split; [|discriminate]. intros (i & Hi & _ & X). rewrite (proj1 (values_nil o) E i Hi) in X. discriminate.
    + split; [reflexivity|]. intros _. assert (X : In v (vs o)) by (rewrite E; now left). apply values_in in X as (i & Hi & X & _). exists i. auto.
  - rewrite negb_true_iff, <- not_true_iff_false, PI. cbn [plan_predicate fst snd holds]. specialize (T (or_intror eq_refl)). destruct (vs o) as [|v q] eqn:E.
    + split; [reflexivity|]. intros _ (i & Hi & _ & X). rewrite (proj1 (values_nil o) E i Hi) in X. discriminate.
    + split; [|discriminate]. intros K. exfalso. apply K. assert (X : In v (vs o)) by (rewrite E; now left). apply values_in in X as (i & Hi & X & _). exists i. auto.
Qed.
End Predicate.

Lemma nth_seq_map {T} (f : nat -> option T) n t : nth t (map f (seq 0 n)) None = if t <? n then f t else None.
Proof.
  destruct (Nat.ltb_spec t n) as [Lt|Ge]; [|apply nth_overflow; rewrite map_length, seq_length; exact Ge].
  rewrite nth_indep with (d' := f 0) by (rewrite map_length, seq_length; exact Lt). rewrite map_nth, seq_nth by exact Lt. reflexivity.
Qed.
Lemma outer_columns_alone n L rows : outer_columns n L (outer_columns n L rows) = outer_columns n L rows.
Proof.
  unfold outer_columns. rewrite map_map. apply map_ext. intros r. unfold alone, glue.
  apply map_ext_in. intros k Hk. apply in_seq in Hk. cbn [existsb]. destruct (existsb (Nat.eqb k) L) eqn:E; [|reflexivity].
  rewrite nth_seq_map. destruct (Nat.ltb_spec k n); [|lia]. now rewrite E.
Qed.
Lemma outer_columns_app n L a b : outer_columns n L (a ++ b) = outer_columns n L a ++ outer_columns n L b.
Proof. apply map_app. Qed.
Lemma filter_ext_in' {T} (f g : T -> bool) l : (forall a, In a l -> f a = g a) -> filter f l = filter g l.
Proof. induction l as [|a l IH]; cbn; intros K; [auto|]. rewrite K by (now left). rewrite IH by (intros; apply K; now right). reflexivity. Qed.

Theorem predicate_top A p x e truth moved in_eq cond sub inner outer src caps :
  ap_type A = apply_type p -> ap_conds A = apply_conds p x e truth moved -> ap_one_row A = apply_one_row p ->
  inputs_ok (hashes A) in_eq (ap_size A) (ap_outer A) (ap_inner A) (ap_conds A) sub inner outer ->
  supplies in_eq A sub inner outer src -> parent_ok A ->
  decides cond moved -> reads_outer (ap_size A) (ap_outer A) (ap_inner A) x -> type_of e = type_of x ->
  (p = PExists \/ p = PNotExists -> forall r, truth r = Some true) ->
  let value o := side (alone (ap_size A) (ap_outer A) o) x in
  let values := sub_values (ap_size A) (ap_outer A) (ap_inner A) cond sub e in
  (forall o, In o outer -> covered p (value o) (values o)) ->
  match arun A src outer caps with
  | Rows out => up_to (ap_limit A) (outer_columns (ap_size A) (ap_outer A) out)
      (outer_columns (ap_size A) (ap_outer A) (filter (fun o => accepts p (type_of x) (value o) (values o)) outer))
  | Error => exists op, p = PScalar op
  | Unfinished => ~ enough caps (2 * length outer)
  end.
Proof.
  intros J Cs One Ok Sup Par Cond Rx Te T value values Cov.
  set (on := is_satisfy_filter (ap_conds A)).
  assert (On : decides on (ap_conds A)) by (intros r; apply filter_spec).
  assert (K : filter (keeps (ap_size A) (ap_outer A) (ap_inner A) sub p on) outer = filter (fun o => accepts p (type_of x) (value o) (values o)) outer).
  { apply filter_ext_in'. intros o Ho. rewrite Cs in On. eapply keeps_spec; eauto. }
  assert (Pc : ap_one_row A = true -> exists op, p = PScalar op) by (rewrite One; destruct p; cbn; try discriminate; eauto).
  rewrite <- K. unfold keeps. rewrite <- J. destruct (ap_type A) eqn:JT.
  - pose proof (semi_top A in_eq on sub inner outer src Ok On Sup Par caps JT) as X. destruct (arun A src outer caps); auto.
  - pose proof (anti_top A in_eq on sub inner outer src Ok On Sup Par caps JT) as X. destruct (arun A src outer caps); auto.
    destruct X as (rest & P & Q). exists (outer_columns (ap_size A) (ap_outer A) rest). split.
    + rewrite <- outer_columns_app. apply Permutation_trans with (outer_columns (ap_size A) (ap_outer A) (outer_columns (ap_size A) (ap_outer A) (anti (ap_size A) (ap_outer A) (ap_inner A) on sub outer))).
      * now apply Permutation_map.
      * now rewrite outer_columns_alone.
    + destruct Q as [->|Q]; [now left|right]. unfold outer_columns. now rewrite map_length.
  - exfalso. symmetry in J. destruct p; discriminate.
Qed.

(* comparison with a subquery whose conditions on the outer query all set columns equal *)
Theorem scalar_error_top A op x e truth moved in_eq cond sub inner outer src caps :
  op <> OpEq -> ap_type A = ASemi -> ap_conds A = apply_conds (PScalar op) x e truth moved -> ap_one_row A = true ->
  inputs_ok (hashes A) in_eq (ap_size A) (ap_outer A) (ap_inner A) (ap_conds A) sub inner outer ->
  supplies in_eq A sub inner outer src -> parent_ok A ->
  decides cond moved -> only_keys (ap_outer A) (ap_inner A) moved -> ap_limit A = None -> enough caps (2 * length outer) ->
  (arun A src outer caps = Error <->
   exists o, In o outer /\ scalar (sub_values (ap_size A) (ap_outer A) (ap_inner A) cond sub e o) = None).
Proof.
  intros Nop J Cs One Ok Sup Par Cond Keys Lim En.
  set (on := is_satisfy_filter (ap_conds A)).
  assert (On : decides on (ap_conds A)) by (intros r; apply filter_spec).
  pose proof (apply_run A in_eq on sub inner outer src Ok On Sup Par caps ltac:(unfold left_ok; congruence)) as X.
  assert (HN : hashes A = false) by (destruct (hashes A) eqn:HA; [rewrite (hashes_one_row A HA) in One; discriminate|reflexivity]).
  pose proof Ok as [Apart Small Ex _]. specialize (Ex HN).
  assert (Ov : forall o, In o outer -> (overfull A src o <-> scalar (sub_values (ap_size A) (ap_outer A) (ap_inner A) cond sub e o) = None)).
  { intros o Ho. unfold overfull. rewrite (Permutation_length (sup_row _ _ _ _ _ _ Sup o Ho)).
    assert (E : filter (in_pass in_eq (apairs A) [o]) (sub o) = filter (fun i => cond (glue (ap_size A) (ap_outer A) (ap_inner A) o i)) (sub o)).
    { apply filter_ext. intros i. apply Bool.eq_iff_eq_true. rewrite (in_pass_one A in_eq) by exact Ex. rewrite (Cond _), (on_split _ _ _ moved Apart Small).
      rewrite rest_empty by (try exact Apart; exact Keys). unfold apairs, pairs_of. rewrite Cs. unfold apply_conds, key_pairs. cbn [flat_map plan_predicate fst snd].
      replace (fst (equal_condition (ap_outer A) (ap_inner A) (compare_cond op x e))) with (@nil (slot * slot)) by (destruct op; [contradiction|..]; reflexivity).
      cbn [app]. split; [intros K; split; [constructor|exact K]|tauto]. }
    rewrite E. unfold sub_values. set (l := filter _ (sub o)). destruct l as [|a [|b q]]; cbn [map scalar length]; split; try lia; try discriminate; auto.
    intros _. split; [exact One|lia]. }
  destruct (arun A src outer caps) eqn:E.
  - split; [discriminate|]. intros (o & Ho & K). destruct X as [_ X]. exfalso. apply (X Lim o Ho). apply Ov; auto.
  - split; [|reflexivity]. intros _. destruct X as (_ & o & Ho & K). exists o. split; [exact Ho|]. apply Ov; auto.
  - exfalso. apply X. eapply enough_mono; [|exact En]. pose proof (short A on sub outer ltac:(congruence)). lia.
Qed.
