From Verif.AutoInc Require Import Model Spec.
From Coq Require Import DecimalZ DecimalString.
Local Open Scope Z_scope.

Lemma lookup_erase_eq t m : lookup t (erase t m) = None.
Proof. induction m as [|[k v] m IH]; cbn; auto. destruct (Z.eqb_spec k t); cbn; auto. destruct (Z.eqb_spec k t); congruence. Qed.
Lemma lookup_erase_neq t u m : t <> u -> lookup t (erase u m) = lookup t m.
Proof.
  intros N. induction m as [|[k v] m IH]; cbn; auto. destruct (Z.eqb_spec k u); cbn; destruct (Z.eqb_spec k t); auto; congruence.
Qed.
Lemma lookup_assign t u v m : lookup t (assign u v m) = if u =? t then Some v else lookup t m.
Proof. unfold assign. cbn. destruct (Z.eqb_spec u t); auto. apply lookup_erase_neq. auto. Qed.

(* ---- values never exceed the bound ---- *)
Definition bounded (B : Z) (m : idmap) : Prop := forall t v, lookup t m = Some v -> 0 <= v <= B.

Lemma highest_nonneg l : Forall op_ok l -> 0 <= highest l.
Proof. induction 1; cbn; lia. Qed.
Lemma counted_nonneg o : op_ok o -> 0 <= counted o.
Proof. destruct o as [| |? ? ?|? ? [|] ?]; cbn; unfold is_u64; lia. Qed.
Lemma total_nonneg l : Forall op_ok l -> 0 <= total l.
Proof. induction 1; cbn; [lia|]. pose proof (counted_nonneg _ H). lia. Qed.

Lemma u64_small x : 0 <= x < 2 ^ 64 -> u64 x = x.
Proof. intros. apply Z.mod_small. auto. Qed.

Lemma bounded_assign B B' m t v : bounded B m -> B <= B' -> 0 <= v <= B' -> bounded B' (assign t v m).
Proof.
  intros H1 H2 H3 u w. rewrite lookup_assign. destruct (Z.eqb_spec t u); intros E.
  - inversion E; subst; auto.
  - apply H1 in E. lia.
Qed.
Lemma bounded_weaken B B' m : bounded B m -> B <= B' -> bounded B' m.
Proof. intros H1 H2 t v E. apply H1 in E. lia. Qed.

(* one step: H = highest so far (of whole history), T = total so far *)
Lemma step_bounded H T m o :
  op_ok o -> explicit_of o <= H -> 0 <= T -> 0 <= H -> H + T + counted o < 2 ^ 64 -> bounded (H + T) m ->
  bounded (H + T + counted o) (fst (apply_op m o)).
Proof.
  intros OK HE HT HH HB BM. pose proof (counted_nonneg o OK) as HC. destruct o as [t s f|t|t c s|t s i f]; cbn [apply_op].
  - unfold add_table_id. destruct (lookup t m) eqn:E; cbn.
    + eapply bounded_weaken; eauto. cbn in *. lia.
    + cbn in *. unfold is_u64 in *. eapply bounded_assign; eauto; lia.
  - unfold drop_table_id. destruct (lookup t m) eqn:E; cbn; cbn in HC; [|eapply bounded_weaken; eauto; lia].
    intros u w. destruct (Z.eq_dec t u).
    + subst. rewrite lookup_erase_eq. discriminate.
    + rewrite lookup_erase_neq by auto. intros Q. apply BM in Q. lia.
  - unfold gen_id. destruct (lookup t m) as [old|] eqn:E; cbn; cbn in HC; [|eapply bounded_weaken; eauto; lia].
    pose proof (BM _ _ E). cbn in HE, HB, OK. unfold is_u64, opt_ok in *. destruct OK as [OC OS].
    eapply bounded_assign; eauto; [lia|].
    destruct s as [s|]; [|rewrite u64_small by lia; lia].
    unfold is_u64 in OS. rewrite (u64_small (s + 1)) by lia.
    destruct (old <? s + 1); rewrite u64_small by lia; lia.
  - unfold update. destruct (lookup t m) as [old|] eqn:E; cbn [fst]; [|eapply bounded_weaken; eauto; lia].
    pose proof (BM _ _ E). cbn in HE, HB, OK, HC |- *. unfold is_u64, opt_ok in *. destruct OK as [OS OI].
    destruct s as [s|], i as [i|]; cbn [fst]; try (eapply bounded_weaken; eauto; lia).
    + unfold is_u64 in *. destruct ((u64 (s + 1) <? old) && negb f); cbn [fst]; [eapply bounded_weaken; eauto; lia|].
      rewrite u64_small by lia. eapply bounded_assign; eauto; lia.
    + unfold is_u64 in *. rewrite u64_small by lia. eapply bounded_assign; eauto; lia.
Qed.

(* ---- a lower bound on the counter of t is kept by every step that is not a restart ---- *)
Definition at_least (t x : Z) (m : idmap) : Prop := forall v, lookup t m = Some v -> x <= v.
(* present or "at least" vacuous: t is dropped only by restarts, so presence is kept too *)
Definition holds_at_least (t x : Z) (m : idmap) : Prop := exists v, lookup t m = Some v /\ x <= v.

Lemma hal_other t x m u v : u <> t -> holds_at_least t x m -> holds_at_least t x (assign u v m).
Proof. intros N (w & E & H). exists w. rewrite lookup_assign. destruct (Z.eqb_spec u t); [congruence|auto]. Qed.
Lemma hal_this t x m v : x <= v -> holds_at_least t x (assign t v m).
Proof. intros H. exists v. rewrite lookup_assign, Z.eqb_refl. auto. Qed.
Lemma hal_erase t x m u : u <> t -> holds_at_least t x m -> holds_at_least t x (erase u m).
Proof. intros N (w & E & H). exists w. rewrite lookup_erase_neq by auto. auto. Qed.

Lemma step_lower B m o t x : op_ok o -> bounded B m -> Z.max (explicit_of o) B + counted o < 2 ^ 64 ->
  ~ restarts t o -> holds_at_least t x m -> holds_at_least t x (fst (apply_op m o)).
Proof.
  intros OK BM HB NR HA. destruct HA as (w & EW & HW).
  assert (HA : holds_at_least t x m) by (exists w; auto).
  destruct o as [u s f|u|u c s|u s i f]; cbn [apply_op].
  - unfold add_table_id. destruct (lookup u m) eqn:E; cbn; auto.
    destruct (Z.eq_dec u t); [subst; congruence|]. apply hal_other; auto.
  - unfold drop_table_id. cbn in NR. destruct (lookup u m); cbn; auto. apply hal_erase; auto.
  - unfold gen_id. destruct (lookup u m) as [old|] eqn:E; cbn; auto.
    destruct (Z.eq_dec u t); [|apply hal_other; auto]. subst u. rewrite EW in E. injection E as <-.
    apply hal_this. pose proof (BM _ _ EW). cbn in HB, OK. destruct OK as [OC OS]. unfold is_u64, opt_ok in *.
    destruct s as [s|]; [|rewrite u64_small by lia; lia].
    unfold is_u64 in OS. rewrite (u64_small (s + 1)) by lia.
    destruct (Z.ltb_spec w (s + 1)); rewrite u64_small by lia; lia.
  - unfold update. destruct (lookup u m) as [old|] eqn:E; cbn [fst]; auto.
    cbn in HB, OK. destruct OK as [OS OI]. unfold is_u64, opt_ok in *.
    destruct s as [s|], i as [i|]; cbn [fst]; auto.
    + unfold is_u64 in *. destruct ((u64 (s + 1) <? old) && negb f) eqn:Q; cbn [fst]; auto.
      destruct (Z.eq_dec u t); [|apply hal_other; auto]. subst u. rewrite EW in E. injection E as <-.
      destruct f; [cbn in NR; congruence|]. cbn in Q. rewrite andb_true_r in Q. apply Z.ltb_ge in Q.
      apply hal_this. lia.
    + unfold is_u64 in *. destruct (Z.eq_dec u t); [|apply hal_other; auto]. subst u. rewrite EW in E. injection E as <-.
      pose proof (BM _ _ EW). apply hal_this. rewrite u64_small by lia. lia.
Qed.

(* ---- runs ---- *)
Fixpoint final (m : idmap) (l : list op) : idmap :=
  match l with [] => m | o :: l' => final (fst (apply_op m o)) l' end.
Lemma apply_log_final m l : fst (apply_log m l) = final m l.
Proof.
  revert m. induction l as [|o l IH]; intros m; cbn; auto. rewrite <- IH.
  destruct (apply_op m o) as [m' r]. cbn. destruct (apply_log m' l). reflexivity.
Qed.
Lemma answer_at : forall l m i o, nth_error l i = Some o ->
  nth_error (snd (apply_log m l)) i = Some (snd (apply_op (final m (firstn i l)) o)).
Proof.
  induction l as [|a l IH]; intros m i o E; [destruct i; discriminate|].
  cbn [apply_log]. destruct (apply_op m a) as [m' r] eqn:A. destruct (apply_log m' l) as [m'' rs] eqn:L.
  destruct i as [|i]; cbn in E |- *.
  - inversion E; subst. rewrite A. reflexivity.
  - rewrite A. cbn. specialize (IH m' i o E). rewrite L in IH. exact IH.
Qed.
Lemma final_app m l1 l2 : final m (l1 ++ l2) = final (final m l1) l2.
Proof. revert m. induction l1; intros; cbn; auto. Qed.

Lemma highest_in l o : In o l -> explicit_of o <= highest l.
Proof. induction l as [|a l IH]; cbn; intros []; [subst; lia|]. specialize (IH H). lia. Qed.
Lemma total_app l1 l2 : total (l1 ++ l2) = total l1 + total l2.
Proof. induction l1; cbn; lia. Qed.

Lemma run_bounded H : forall l m T, Forall op_ok l -> (forall o, In o l -> explicit_of o <= H) -> 0 <= H -> 0 <= T ->
  H + T + total l < 2 ^ 64 -> bounded (H + T) m -> bounded (H + T + total l) (final m l).
Proof.
  induction l as [|o l IH]; intros m T F HI HH HT HB BM; cbn [total final] in *.
  - replace (H + T + 0) with (H + T) by lia. auto.
  - inversion F; subst. pose proof (counted_nonneg _ H2). pose proof (total_nonneg _ H3).
    replace (H + T + (counted o + total l)) with (H + (T + counted o) + total l) by lia.
    apply IH; auto; try lia.
    + intros o' Ho'. apply HI. right. auto.
    + replace (H + (T + counted o)) with (H + T + counted o) by lia.
      apply step_bounded; auto; try lia. apply HI. left. auto.
Qed.

Lemma bounded_nil B : bounded B [].
Proof. intros t v E. discriminate. Qed.

(* state before entry i of a good history *)
Lemma prefix_bounded (l : list op) i : Forall op_ok l -> no_overflow l ->
  bounded (highest l + total (firstn i l)) (final [] (firstn i l)) /\
  total (firstn i l) + total (skipn i l) = total l.
Proof.
  intros F NO. assert (E : total (firstn i l) + total (skipn i l) = total l).
  { rewrite <- (firstn_skipn i l) at 3. rewrite total_app. lia. }
  split; auto.
  pose proof (highest_nonneg l F). assert (F2 : Forall op_ok (skipn i l)).
  { rewrite <- (firstn_skipn i l) in F. apply Forall_app in F. tauto. }
  assert (F1 : Forall op_ok (firstn i l)).
  { rewrite <- (firstn_skipn i l) in F. apply Forall_app in F. tauto. }
  pose proof (total_nonneg _ F2). unfold no_overflow in NO.
  replace (highest l + total (firstn i l)) with (highest l + 0 + total (firstn i l)) by lia.
  apply run_bounded; auto; try lia; [|apply bounded_nil].
  intros o Ho. apply highest_in. rewrite <- (firstn_skipn i l). apply in_or_app. auto.
Qed.

Lemma nth_skipn {A} (l : list A) i o : nth_error l i = Some o -> skipn i l = o :: skipn (S i) l.
Proof. revert i. induction l; intros [|i] E; cbn in E; try discriminate; [inversion E; auto|]. cbn. apply IHl. auto. Qed.
Lemma firstn_S {A} (l : list A) i o : nth_error l i = Some o -> firstn (S i) l = firstn i l ++ [o].
Proof. revert i. induction l; intros [|i] E; cbn in E; try discriminate; [inversion E; auto|]. cbn. f_equal. apply IHl. auto. Qed.

Lemma step_room (l : list op) i o : Forall op_ok l -> no_overflow l -> nth_error l i = Some o ->
  op_ok o /\ bounded (highest l + total (firstn i l)) (final [] (firstn i l)) /\
  explicit_of o <= highest l /\ 0 <= total (firstn i l) /\ 0 <= highest l /\
  highest l + total (firstn i l) + counted o < 2 ^ 64.
Proof.
  intros F NO E. destruct (prefix_bounded l i F NO) as [B T].
  assert (In o l) by (eapply nth_error_In; eauto).
  assert (OK : op_ok o) by (rewrite Forall_forall in F; auto).
  rewrite (nth_skipn _ _ _ E) in T. cbn [total] in T.
  assert (F2 : Forall op_ok (skipn (S i) l)).
  { rewrite <- (firstn_skipn (S i) l) in F. apply Forall_app in F. tauto. }
  assert (F1 : Forall op_ok (firstn i l)).
  { rewrite <- (firstn_skipn i l) in F. apply Forall_app in F. tauto. }
  pose proof (total_nonneg _ F2). pose proof (total_nonneg _ F1). pose proof (highest_nonneg _ F).
  unfold no_overflow in NO. split; [auto|]. split; [auto|]. split; [apply highest_in; auto|]. lia.
Qed.

Lemma kept (l : list op) i j t x : Forall op_ok l -> no_overflow l -> (i < j)%nat -> (j <= length l)%nat ->
  between i j l (fun o => ~ restarts t o) ->
  holds_at_least t x (final [] (firstn (S i) l)) -> holds_at_least t x (final [] (firstn j l)).
Proof.
  intros F NO. induction j as [|j IH]; intros L1 L2 BT HA; [lia|].
  destruct (Nat.eq_dec i j) as [->|NE]; auto.
  assert (HJ : holds_at_least t x (final [] (firstn j l))).
  { apply IH; auto; try lia. intros k o Hk. apply BT. lia. }
  destruct (nth_error l j) as [o|] eqn:E; [|apply nth_error_None in E; lia].
  rewrite (firstn_S _ _ _ E), final_app. cbn [final].
  destruct (step_room l j o F NO E) as (OK & B & HE & HT & HH & HR).
  eapply step_lower; eauto; [lia|]. apply (BT j); auto. lia.
Qed.

Lemma gen_answer (l : list op) i t c s a b : Forall op_ok l -> no_overflow l ->
  nth_error l i = Some (OGen t c s) -> answer l i = Some (RIds a b) ->
  b = a + c /\ holds_at_least t b (final [] (firstn (S i) l)) /\
  (forall x, holds_at_least t x (final [] (firstn i l)) -> x <= a) /\
  (forall m, s = Some m -> m < a).
Proof.
  intros F NO E A. unfold answer in A. rewrite (answer_at _ _ _ _ E) in A.
  destruct (step_room l i _ F NO E) as (OK & B & HE & HT & HH & HR).
  rewrite (firstn_S _ _ _ E), final_app. set (m0 := final [] (firstn i l)) in *.
  cbn [final apply_op] in A |- *. unfold gen_id in A |- *.
  destruct (lookup t m0) as [old|] eqn:EL; [|discriminate]. cbn [fst snd] in A |- *.
  pose proof (B _ _ EL). cbn in OK, HE, HR. destruct OK as [OC OS]. unfold is_u64, opt_ok in *.
  destruct s as [s|].
  - unfold is_u64 in OS. rewrite (u64_small (s + 1)) in A |- * by lia.
    destruct (Z.ltb_spec old (s + 1)); injection A as A1 A2; rewrite (u64_small) in * by lia.
    + split; [lia|]. split; [apply hal_this; lia|]. split; [|intros m Em; injection Em; lia].
      intros x (v & Ev & Hv). rewrite EL in Ev. injection Ev as <-. lia.
    + split; [lia|]. split; [apply hal_this; lia|]. split; [|intros m Em; injection Em; lia].
      intros x (v & Ev & Hv). rewrite EL in Ev. injection Ev as <-. lia.
  - injection A as A1 A2. rewrite (u64_small) in * by lia.
    split; [lia|]. split; [apply hal_this; lia|]. split; [|discriminate].
    intros x (v & Ev & Hv). rewrite EL in Ev. injection Ev as <-. lia.
Qed.

Theorem ids_disjoint : forall (l : list op) i j t c1 s1 c2 s2 a1 b1 a2 b2,
  Forall op_ok l -> no_overflow l -> (i < j)%nat ->
  nth_error l i = Some (OGen t c1 s1) -> nth_error l j = Some (OGen t c2 s2) ->
  answer l i = Some (RIds a1 b1) -> answer l j = Some (RIds a2 b2) ->
  between i j l (fun o => ~ restarts t o) ->
  b1 = a1 + c1 /\ b2 = a2 + c2 /\ b1 <= a2.
Proof.
  intros l i j t c1 s1 c2 s2 a1 b1 a2 b2 F NO L E1 E2 A1 A2 BT.
  destruct (gen_answer _ _ _ _ _ _ _ F NO E1 A1) as (X1 & X2 & _).
  destruct (gen_answer _ _ _ _ _ _ _ F NO E2 A2) as (Y1 & _ & Y3 & _).
  split; auto. split; auto. apply Y3. eapply kept; eauto.
  assert (j < length l)%nat by (apply nth_error_Some; congruence). lia.
Qed.

Theorem above_explicit : forall (l : list op) i j t o r m c s a b,
  Forall op_ok l -> no_overflow l -> (i < j)%nat ->
  nth_error l i = Some o -> answer l i = Some r -> records_id o r t m ->
  nth_error l j = Some (OGen t c s) -> answer l j = Some (RIds a b) ->
  between i j l (fun o => ~ restarts t o) ->
  m < a.
Proof.
  intros l i j t o r m c s a b F NO L E1 A1 RC E2 A2 BT.
  destruct (gen_answer _ _ _ _ _ _ _ F NO E2 A2) as (_ & _ & Y3 & _).
  assert (LJ : (j < length l)%nat) by (apply nth_error_Some; congruence).
  cut (holds_at_least t (m + 1) (final [] (firstn (S i) l))).
  { intros HA. assert (m + 1 <= a) by (apply Y3; eapply kept; eauto; lia). lia. }
  destruct RC as [(c0 & -> & NE)|(f & -> & ->)].
  - destruct r as [| |a0 b0]; [congruence| |].
    + unfold answer in A1. rewrite (answer_at _ _ _ _ E1) in A1. cbn [apply_op] in A1. unfold gen_id in A1.
      destruct (lookup _ _); discriminate.
    + destruct (gen_answer _ _ _ _ _ _ _ F NO E1 A1) as (X1 & (v & Ev & Hv) & _ & X4). exists v. split; auto.
      specialize (X4 m eq_refl). assert (op_ok (OGen t c0 (Some m))).
      { rewrite Forall_forall in F. apply F. eapply nth_error_In; eauto. } destruct H as [H _]. unfold is_u64 in H. lia.
  - destruct (step_room l i _ F NO E1) as (OK & B & HE & HT & HH & HR).
    unfold answer in A1. rewrite (answer_at _ _ _ _ E1) in A1. rewrite (firstn_S _ _ _ E1), final_app.
    cbn [final apply_op] in A1 |- *. unfold update in *. destruct (lookup _ _) as [old|]; [|discriminate].
    cbn in OK, HE, HR. unfold is_u64, opt_ok in *. unfold is_u64 in OK.
    destruct ((u64 (m + 1) <? old) && negb f); [discriminate|]. cbn [fst]. apply hal_this. rewrite u64_small by lia. lia.
Qed.

