(* group keys: equal exactly for rows of the same group *)
From Coq Require Import List ZArith Bool Lia.
From Verif Require Import Common.Bytes Common.KV Key.Model Key.Spec Key.ProofsKey Key.ProofsTop Agg.Model Agg.Spec Agg.Bits.
Import ListNotations.
Local Open Scope Z_scope.

Definition gvals (gs : groups) (r : row) : list (option value) := map (fun p => snd p r) gs.

Fixpoint npat (i : nat) (vs : list (option value)) : Z :=
  match vs with
  | [] => 0
  | None :: q => Z.lor (Z.shiftl 1 (7 - Z.of_nat i)) (npat (S i) q)
  | Some _ :: q => npat (S i) q
  end.
Fixpoint nok (i : nat) (vs : list (option value)) : Prop :=
  match vs with
  | [] => True
  | None :: q => (i <= 7)%nat /\ nok (S i) q
  | Some _ :: q => nok (S i) q
  end.

Lemma bit1 k n : 0 <= n -> 0 <= k -> Z.testbit (Z.shiftl 1 k) n = (n =? k).
Proof.
  intros Hn Hk. rewrite Z.shiftl_mul_pow2, Z.mul_1_l by lia.
  destruct (Z.eqb_spec n k) as [->|Ne]; [apply Z.pow2_bits_true; lia|apply Z.pow2_bits_false; lia].
Qed.
Lemma npat_high vs : forall i n, nok i vs -> 7 - Z.of_nat i < n -> 0 <= n -> Z.testbit (npat i vs) n = false.
Proof.
  induction vs as [|[v|] vs IH]; intros i n Hk Hn Hp; cbn [npat nok] in *; [apply Z.bits_0|apply IH; auto; lia|].
  destruct Hk as [Hi Hk]. rewrite Z.lor_spec, bit1 by lia.
  destruct (Z.eqb_spec n (7 - Z.of_nat i)) as [E|E]; [lia|]. apply IH; auto; lia.
Qed.
Lemma npat_inj a : forall b i, length a = length b -> nok i a -> nok i b ->
  npat i a = npat i b -> null_pattern_compare a b = Eq.
Proof.
  induction a as [|x a IH]; intros [|y b] i Hl Ha Hb E; cbn [length] in *; try discriminate; [reflexivity|].
  destruct x as [x|], y as [y|]; cbn [npat nok null_pattern_compare] in *.
  - eapply IH; eauto.
  - exfalso. destruct Hb as [Hi Hb]. assert (E2 := f_equal (fun z => Z.testbit z (7 - Z.of_nat i)) E). cbn beta in E2.
    rewrite npat_high in E2 by (auto || lia). rewrite Z.lor_spec, bit1, Z.eqb_refl in E2 by lia. discriminate.
  - exfalso. destruct Ha as [Hi Ha]. assert (E2 := f_equal (fun z => Z.testbit z (7 - Z.of_nat i)) E). cbn beta in E2.
    rewrite (npat_high b) in E2 by (auto || lia). rewrite Z.lor_spec, bit1, Z.eqb_refl in E2 by lia. discriminate.
  - destruct Ha as [Hi Ha], Hb as [_ Hb]. apply (IH b (S i)); auto.
    apply Z.bits_inj'. intros n Hn. destruct (Z.eq_dec n (7 - Z.of_nat i)) as [->|Ne].
    + rewrite !npat_high by (auto || lia). reflexivity.
    + assert (E2 := f_equal (fun z => Z.testbit z n) E). cbn beta in E2. rewrite !Z.lor_spec, !bit1 in E2 by lia.
      destruct (Z.eqb_spec n (7 - Z.of_nat i)) as [E3|E3]; [lia|]. exact E2.
Qed.
Lemma npat_same a : forall b i, null_pattern_compare a b = Eq -> length a = length b -> npat i a = npat i b.
Proof.
  induction a as [|x a IH]; intros [|y b] i E Hl; cbn [length] in *; try discriminate; [reflexivity|].
  destruct x, y; cbn [npat null_pattern_compare] in *; try discriminate; [|f_equal]; apply IH; auto.
Qed.

Lemma nok_groupable gs r : forall i, (forall t e, In (t, e) (skipn (8 - i) gs) -> e r <> None) -> nok i (gvals gs r).
Proof.
  induction gs as [|[t e] gs IH]; intros i Hn; cbn [gvals map nok]; [exact I|].
  assert (Hq : nok (S i) (gvals gs r)).
  { apply IH. intros t' e' Hin. apply (Hn t' e').
    destruct (Nat.leb_spec 8 i) as [L|L].
    - replace (8 - i)%nat with O by lia. replace (8 - S i)%nat with O in Hin by lia. cbn in *. auto.
    - replace (8 - i)%nat with (S (8 - S i))%nat by lia. exact Hin. }
  cbn [snd]. destruct (e r) eqn:E; [exact Hq|]. split; [|exact Hq].
  destruct (Nat.leb_spec i 7) as [L|L]; [exact L|]. exfalso. apply (Hn t e); [|exact E].
  replace (8 - i)%nat with O by lia. left; reflexivity.
Qed.

Lemma group_key_from_ok gs r : forall i flag,
  (forall t e v, In (t, e) gs -> e r = Some v -> value_ok t v) -> nok i (gvals gs r) ->
  group_key_from i flag gs r = Some (Z.lor flag (npat i (gvals gs r)), cenc (map fst gs) (gvals gs r)).
Proof.
  induction gs as [|[t e] gs IH]; intros i flag Hv Hk; cbn [group_key_from gvals map npat cenc nok fst snd] in *.
  - rewrite Z.lor_0_r. reflexivity.
  - assert (Hv' : forall t0 e0 v, In (t0, e0) gs -> e0 r = Some v -> value_ok t0 v) by (intros; eapply Hv; [right|]; eauto).
    destruct (e r) as [v|] eqn:E.
    + fold (gvals gs r) in *. rewrite IH by auto. rewrite encode_field_fenc by (eapply Hv; [left; reflexivity|exact E]). reflexivity.
    + fold (gvals gs r) in *. destruct Hk as [Hi Hk]. destruct (Nat.ltb_spec 7 i); [lia|].
      rewrite IH by auto. rewrite Z.lor_assoc. reflexivity.
Qed.

Lemma gvals_typed gs r : (forall t e v, In (t, e) gs -> e r = Some v -> value_ok t v) ->
  Forall2 (fun t o => forall v, o = Some v -> value_ok t v) (map fst gs) (gvals gs r).
Proof.
  induction gs as [|[t e] gs IH]; intros Hv; cbn [map gvals fst snd]; constructor.
  - intros v E. eapply Hv; [left; reflexivity|exact E].
  - apply IH. intros. eapply Hv; [right|]; eauto.
Qed.

Lemma same_group_compare gs r r' :
  same_group gs r r' = true <->
  null_pattern_compare (gvals gs r) (gvals gs r') = Eq /\ nonnull_compare (map fst gs) (gvals gs r) (gvals gs r') = Eq.
Proof.
  unfold same_group. induction gs as [|[t e] gs IH]; cbn [forallb gvals map fst snd null_pattern_compare nonnull_compare]; [tauto|].
  fold (gvals gs r) (gvals gs r'). rewrite andb_true_iff, IH. unfold same_column.
  destruct (e r) as [v|], (e r') as [w|]; try (intuition discriminate).
  destruct (value_compare t v w); intuition discriminate.
Qed.

Theorem group_key_iff gs r r' : groupable gs r -> groupable gs r' ->
  exists k k', group_key gs r = Some k /\ group_key gs r' = Some k' /\ (k = k' <-> same_group gs r r' = true).
Proof.
  intros [V N] [V' N']. pose proof (nok_groupable gs r 0 N) as K. pose proof (nok_groupable gs r' 0 N') as K'.
  unfold group_key. rewrite !group_key_from_ok by assumption. rewrite !Z.lor_0_l. do 2 eexists. do 2 (split; [reflexivity|]).
  rewrite same_group_compare.
  pose proof (cenc_compare (map fst gs) (gvals gs r) (gvals gs r') [] [] (gvals_typed _ _ V) (gvals_typed _ _ V')) as C.
  rewrite !app_nil_r in C. cbn [bcompare] in C.
  assert (L : length (gvals gs r) = length (gvals gs r')) by (unfold gvals; now rewrite !map_length).
  split.
  - intros E. injection E as E1 E2. assert (NP := npat_inj _ _ _ L K K' E1). split; [exact NP|].
    specialize (C NP). pose proof (eq_trans (eq_sym C) (proj2 (bcompare_eq _ _) E2)) as C2.
    destruct (nonnull_compare _ _ _); congruence.
  - intros [NP NC]. f_equal; [apply npat_same; assumption|]. specialize (C NP). rewrite NC in C. now apply bcompare_eq.
Qed.

(* an equivalence *)
Lemma vc_refl t v : value_compare t v v = Eq.
Proof. apply value_compare_refl. Qed.
Lemma same_group_refl gs r : same_group gs r r = true.
Proof.
  unfold same_group. apply forallb_forall. intros [t e] _. cbn [fst snd]. unfold same_column.
  destruct (e r); [now rewrite vc_refl|reflexivity].
Qed.
Lemma same_column_sym t a b : same_column t a b = same_column t b a.
Proof.
  destruct a as [v|], b as [w|]; cbn [same_column]; try reflexivity. rewrite (vcompare_antisym t v w).
  destruct (value_compare t v w); reflexivity.
Qed.
Lemma same_group_sym gs r r' : same_group gs r r' = same_group gs r' r.
Proof.
  unfold same_group. induction gs as [|p gs IH]; cbn [forallb]; [reflexivity|]. now rewrite IH, same_column_sym.
Qed.
Lemma vc_eq_iff t v w : value_compare t v w = Eq <-> value_compare t v w <> Gt /\ value_compare t w v <> Gt.
Proof. rewrite (vcompare_antisym t v w). destruct (value_compare t v w); cbn; intuition congruence. Qed.
Lemma vc_eq_trans t u v w : value_compare t u v = Eq -> value_compare t v w = Eq -> value_compare t u w = Eq.
Proof.
  rewrite !vc_eq_iff. intros [A B] [C D]. split; eapply vcompare_trans; eauto.
Qed.
Lemma same_group_trans gs a b c : same_group gs a b = true -> same_group gs b c = true -> same_group gs a c = true.
Proof.
  unfold same_group. rewrite !forallb_forall. intros A B [t e] Hin. specialize (A _ Hin). specialize (B _ Hin). cbn [fst snd] in *.
  unfold same_column in *. destruct (e a) as [u|], (e b) as [v|], (e c) as [w|]; try discriminate; [|reflexivity].
  destruct (value_compare t u v) eqn:E1; try discriminate. destruct (value_compare t v w) eqn:E2; try discriminate.
  now rewrite (vc_eq_trans _ _ _ _ E1 E2).
Qed.
Lemma same_group_app gs hs a b : same_group (gs ++ hs) a b = same_group gs a b && same_group hs a b.
Proof. unfold same_group. apply forallb_app. Qed.
