From Verif.Common Require Import Bytes.
From Verif.Key Require Import Model Spec ProofsWord.
Local Open Scope Z_scope.

Section Float.
  Variables eb fb : Z.
  Hypothesis Heb : 1 <= eb.
  Hypothesis Hfb : 1 <= fb.
  Let S := 2 ^ (eb + fb).

  Definition fcode (x : Z) : Z :=
    if x <? S then S + x else if x =? S then S else 2 * S - 1 - x.

  Definition fmag (m : Z) : Z :=
    let e := m / 2 ^ fb in let f := m mod 2 ^ fb in
    if e =? 0 then f else (2 ^ fb + f) * 2 ^ (e - 1).

  Lemma S_pos : 0 < S. Proof. apply Z.pow_pos_nonneg; lia. Qed.

  Lemma fmag_nonneg m : 0 <= m -> 0 <= fmag m.
  Proof.
    intros H. unfold fmag. assert (P : 0 < 2 ^ fb) by (apply Z.pow_pos_nonneg; lia).
    pose proof (Z.mod_pos_bound m (2 ^ fb) P). destruct (Z.eqb_spec (m / 2 ^ fb) 0); [lia|].
    apply Z.mul_nonneg_nonneg; [lia|]. apply Z.pow_nonneg. lia.
  Qed.

  Lemma fmag_mono m n : 0 <= m -> m < n -> fmag m < fmag n.
  Proof.
    intros Hm Hn. unfold fmag.
    assert (P : 0 < 2 ^ fb) by (apply Z.pow_pos_nonneg; lia).
    set (p := 2 ^ fb) in *.
    pose proof (Z.mod_pos_bound m p P) as Bm. pose proof (Z.mod_pos_bound n p P) as Bn.
    pose proof (Z.div_mod m p ltac:(lia)) as Em. pose proof (Z.div_mod n p ltac:(lia)) as En.
    assert (D : 0 <= m / p) by (apply Z.div_pos; lia).
    assert (L : m / p <= n / p) by (apply Z.div_le_mono; lia).
    set (em := m / p) in *. set (en := n / p) in *. set (fm := m mod p) in *. set (fn := n mod p) in *.
    destruct (Z.eq_dec em en) as [E|Ne].
    - rewrite <- E in *. assert (fm < fn) by nia.
      destruct (Z.eqb_spec em 0); [lia|].
      assert (0 < 2 ^ (em - 1)) by (apply Z.pow_pos_nonneg; lia). nia.
    - assert (em < en) by lia. destruct (Z.eqb_spec en 0); [lia|].
      assert (Q : 0 < 2 ^ (en - 1)) by (apply Z.pow_pos_nonneg; lia).
      destruct (Z.eqb_spec em 0); [nia|].
      assert (R : 2 ^ em <= 2 ^ (en - 1)) by (apply Z.pow_le_mono_r; lia).
      assert (T : 2 ^ em = 2 * 2 ^ (em - 1)).
      { replace em with (1 + (em - 1)) at 1 by lia. rewrite Z.pow_add_r by lia. reflexivity. }
      assert (0 < 2 ^ (em - 1)) by (apply Z.pow_pos_nonneg; lia).
      assert (p * 2 ^ em <= p * 2 ^ (en - 1)) by (apply Z.mul_le_mono_nonneg_l; lia).
      nia.
  Qed.

  Lemma fmag_0 : fmag 0 = 0.
  Proof. unfold fmag. rewrite Z.div_0_l, Z.mod_0_l; [reflexivity| |]; assert (0 < 2 ^ fb) by (apply Z.pow_pos_nonneg; lia); lia. Qed.

  Lemma fmag_compare m n : 0 <= m -> 0 <= n -> (fmag m ?= fmag n) = (m ?= n).
  Proof.
    intros Hm Hn. destruct (Z.compare_spec m n) as [->|L|G].
    - apply Z.compare_refl.
    - apply Z.compare_lt_iff. apply fmag_mono; lia.
    - apply Z.compare_gt_iff. apply fmag_mono; lia.
  Qed.

  Lemma pat_S x : float_pattern eb fb x -> 0 <= x < 2 * S.
  Proof.
    unfold float_pattern. replace (1 + eb + fb) with (1 + (eb + fb)) by lia.
    rewrite Z.pow_add_r by lia. change (2 ^ 1) with 2. fold S. lia.
  Qed.

  Lemma num_pos x : 0 <= x < S -> float_num eb fb x = fmag x.
  Proof.
    intros H. unfold float_num. fold S. rewrite Z.mod_small by lia.
    destruct (Z.ltb_spec x S); [reflexivity|lia].
  Qed.
  Lemma num_neg x : S <= x < 2 * S -> float_num eb fb x = - fmag (x - S).
  Proof.
    intros H. unfold float_num. fold S.
    replace (x mod S) with (x - S) by (apply Zmod_unique with 1; lia).
    destruct (Z.ltb_spec x S); [lia|reflexivity].
  Qed.

  Lemma fcode_compare x y :
    float_pattern eb fb x -> float_pattern eb fb y ->
    (fcode x ?= fcode y) = (float_num eb fb x ?= float_num eb fb y).
  Proof.
    intros Hx Hy. apply pat_S in Hx. apply pat_S in Hy. pose proof S_pos as HS.
    unfold fcode.
    destruct (Z.ltb_spec x S) as [Lx|Lx]; destruct (Z.ltb_spec y S) as [Ly|Ly].
    - rewrite !num_pos, fmag_compare by lia. apply Z.add_compare_mono_l.
    - rewrite (num_pos x), (num_neg y) by lia. pose proof (fmag_nonneg x ltac:(lia)).
      destruct (Z.eqb_spec y S) as [->|Ny].
      + replace (S - S) with 0 by lia. replace (- fmag 0) with (fmag 0) by (rewrite fmag_0; lia).
        rewrite fmag_compare by lia.
        replace (S + x ?= S) with (S + x ?= S + 0) by (f_equal; lia). apply Z.add_compare_mono_l.
      + assert (fmag 0 < fmag (y - S)) by (apply fmag_mono; lia). rewrite fmag_0 in *.
        transitivity Gt; [apply Z.compare_gt_iff; lia|symmetry; apply Z.compare_gt_iff; lia].
    - rewrite (num_pos y), (num_neg x) by lia. pose proof (fmag_nonneg y ltac:(lia)).
      destruct (Z.eqb_spec x S) as [->|Nx].
      + replace (S - S) with 0 by lia. replace (- fmag 0) with (fmag 0) by (rewrite fmag_0; lia).
        rewrite fmag_compare by lia.
        replace (S ?= S + y) with (S + 0 ?= S + y) by (f_equal; lia). apply Z.add_compare_mono_l.
      + assert (fmag 0 < fmag (x - S)) by (apply fmag_mono; lia). rewrite fmag_0 in *.
        transitivity Lt; [apply Z.compare_lt_iff; lia|symmetry; apply Z.compare_lt_iff; lia].
    - rewrite !num_neg by lia. rewrite Z.compare_opp, fmag_compare by lia.
      destruct (Z.eqb_spec x S), (Z.eqb_spec y S);
      destruct (Z.compare_spec (y - S) (x - S)); subst;
      first [ reflexivity | apply Z.compare_lt_iff; lia | apply Z.compare_gt_iff; lia | apply Z.compare_eq_iff; lia | lia ].
  Qed.

  Lemma fcode_bound x : float_pattern eb fb x -> 0 <= fcode x < 2 * S.
  Proof.
    intros H. apply pat_S in H. pose proof S_pos. unfold fcode.
    destruct (Z.ltb_spec x S); [lia|]. destruct (Z.eqb_spec x S); lia.
  Qed.

  (* the model's branch condition *)
  Lemma ge0_pos x : 0 <= x < S -> ~ float_nan eb fb x -> float_ge0 eb fb x = true.
  Proof.
    intros H N. unfold float_ge0, float_isnan, float_sign, float_exp, float_frac. fold S.
    rewrite (Z.div_small x S) by lia. cbn [Z.modulo Z.eqb orb].
    rewrite Z.mod_0_l by lia. rewrite Z.eqb_refl. cbn [orb]. rewrite andb_true_r.
    apply negb_true_iff. apply not_true_is_false. intros B. apply N.
    unfold float_nan. fold S. rewrite Z.mod_small by lia.
    assert (P : 0 < 2 ^ fb) by (apply Z.pow_pos_nonneg; lia).
    assert (PE : 0 < 2 ^ eb) by (apply Z.pow_pos_nonneg; lia).
    assert (ES : S = 2 ^ eb * 2 ^ fb) by (unfold S; rewrite Z.pow_add_r by lia; reflexivity).
    apply andb_prop in B. destruct B as [B1 B2]. apply Z.eqb_eq in B1.
    apply negb_true_iff, Z.eqb_neq in B2.
    rewrite Z.mod_small in B1.
    2:{ split; [apply Z.div_pos; lia|]. apply Z.div_lt_upper_bound; lia. }
    pose proof (Z.div_mod x (2 ^ fb) ltac:(lia)). pose proof (Z.mod_pos_bound x (2 ^ fb) P). nia.
  Qed.

  Lemma ge0_neg x : S < x < 2 * S -> float_ge0 eb fb x = false.
  Proof.
    intros H. unfold float_ge0, float_sign. fold S. pose proof S_pos.
    replace (x / S) with 1 by (apply Z.div_unique with (x - S); lia).
    replace (x mod S) with (x - S) by (apply Zmod_unique with 1; lia).
    change (1 mod 2 =? 0) with false. cbn [orb].
    destruct (Z.eqb_spec (x - S) 0); [lia|]. apply andb_false_r.
  Qed.
End Float.

Lemma land_sign w k : 0 <= k -> 0 <= w < 2 ^ (k + 1) ->
  Z.land w (2 ^ k) = if w <? 2 ^ k then 0 else 2 ^ k.
Proof.
  intros Hk Hw. destruct (Z.ltb_spec w (2 ^ k)); [apply land_pow2_small; lia|].
  assert (P : 2 ^ (k + 1) = 2 * 2 ^ k) by (rewrite Z.pow_add_r by lia; change (2^1) with 2; lia).
  apply Z.bits_inj'. intros n Hn. rewrite Z.land_spec.
  destruct (Z.eq_dec n k) as [->|Ne].
  - rewrite Z.pow2_bits_true by lia. rewrite andb_true_r.
    rewrite Z.testbit_odd, Z.shiftr_div_pow2 by lia.
    replace (w / 2 ^ k) with 1; [reflexivity|]. apply Z.div_unique with (w - 2 ^ k); lia.
  - rewrite Z.pow2_bits_false by lia. apply andb_false_r.
Qed.

Lemma encode_f32_code x : float_pattern 8 23 x -> ~ float_nan 8 23 x -> encode_f32 x = fcode 8 23 x.
Proof.
  intros Hp Hn. pose proof (pat_S 8 23 ltac:(lia) ltac:(lia) x Hp) as Hx.
  unfold encode_f32, fcode, bnot.
  change (2 ^ (8 + 23)) with 2147483648 in *. change (2 ^ 32) with 4294967296.
  destruct (Z.ltb_spec x 2147483648).
  - rewrite ge0_pos by (try exact Hn; change (2 ^ (8 + 23)) with 2147483648; lia).
    change SIGN_MASK_32 with (2 ^ 31). rewrite lor_sign_small by (change (2 ^ 31) with 2147483648; lia).
    change (2 ^ 31) with 2147483648. lia.
  - destruct (Z.eqb_spec x 2147483648) as [->|].
    + reflexivity.
    + rewrite ge0_neg by (change (2 ^ (8 + 23)) with 2147483648; lia). lia.
Qed.

Lemma encode_f64_code x : float_pattern 11 52 x -> ~ float_nan 11 52 x -> encode_f64 x = fcode 11 52 x.
Proof.
  intros Hp Hn. pose proof (pat_S 11 52 ltac:(lia) ltac:(lia) x Hp) as Hx.
  unfold encode_f64, fcode, bnot.
  change (2 ^ (11 + 52)) with 9223372036854775808 in *. change (2 ^ 64) with 18446744073709551616.
  destruct (Z.ltb_spec x 9223372036854775808).
  - rewrite ge0_pos by (try exact Hn; change (2 ^ (11 + 52)) with 9223372036854775808; lia).
    change SIGN_MASK_64 with (2 ^ 63). rewrite lor_sign_small by (change (2 ^ 63) with 9223372036854775808; lia).
    change (2 ^ 63) with 9223372036854775808. lia.
  - destruct (Z.eqb_spec x 9223372036854775808) as [->|].
    + reflexivity.
    + rewrite ge0_neg by (change (2 ^ (11 + 52)) with 9223372036854775808; lia). lia.
Qed.

(* the value read back: the sign of zero is dropped, nothing else changes *)
Definition fnorm (S x : Z) : Z := if x =? S then 0 else x.

Lemma decode_f32_code x : float_pattern 8 23 x -> decode_f32 (fcode 8 23 x) = fnorm (2 ^ 31) x.
Proof.
  intros Hp. pose proof (pat_S 8 23 ltac:(lia) ltac:(lia) x Hp) as Hx.
  pose proof (fcode_bound 8 23 ltac:(lia) ltac:(lia) x Hp) as Hb.
  change (2 ^ (8 + 23)) with 2147483648 in *.
  unfold decode_f32. change SIGN_MASK_32 with (2 ^ 31).
  rewrite land_sign by (try lia; change (2 ^ (31 + 1)) with 4294967296; lia).
  change (bnot 32 (2 ^ 31)) with (Z.ones 31). rewrite Z.land_ones by lia.
  unfold bnot, fnorm, fcode in *. change (2 ^ (8 + 23)) with 2147483648 in *.
  change (2 ^ 31) with 2147483648. change (2 ^ 32) with 4294967296.
  destruct (Z.ltb_spec x 2147483648).
  - destruct (Z.ltb_spec (2147483648 + x) 2147483648); [lia|].
    change (Z.shiftr 2147483648 31 >? 0) with true. cbv iota.
    destruct (Z.eqb_spec x 2147483648); lia.
  - destruct (Z.eqb_spec x 2147483648) as [->|].
    + reflexivity.
    + destruct (Z.ltb_spec (2 * 2147483648 - 1 - x) 2147483648); [|lia].
      change (Z.shiftr 0 31 >? 0) with false. cbv iota. lia.
Qed.

Lemma decode_f64_code x : float_pattern 11 52 x -> decode_f64 (fcode 11 52 x) = fnorm (2 ^ 63) x.
Proof.
  intros Hp. pose proof (pat_S 11 52 ltac:(lia) ltac:(lia) x Hp) as Hx.
  pose proof (fcode_bound 11 52 ltac:(lia) ltac:(lia) x Hp) as Hb.
  change (2 ^ (11 + 52)) with 9223372036854775808 in *.
  unfold decode_f64. change SIGN_MASK_64 with (2 ^ 63).
  rewrite land_sign by (try lia; change (2 ^ (63 + 1)) with 18446744073709551616; lia).
  change (bnot 64 (2 ^ 63)) with (Z.ones 63). rewrite Z.land_ones by lia.
  unfold bnot, fnorm, fcode in *. change (2 ^ (11 + 52)) with 9223372036854775808 in *.
  change (2 ^ 63) with 9223372036854775808. change (2 ^ 64) with 18446744073709551616.
  destruct (Z.ltb_spec x 9223372036854775808).
  - destruct (Z.ltb_spec (9223372036854775808 + x) 9223372036854775808); [lia|].
    change (Z.shiftr 9223372036854775808 63 >? 0) with true. cbv iota.
    destruct (Z.eqb_spec x 9223372036854775808); lia.
  - destruct (Z.eqb_spec x 9223372036854775808) as [->|].
    + reflexivity.
    + destruct (Z.ltb_spec (2 * 9223372036854775808 - 1 - x) 9223372036854775808); [|lia].
      change (Z.shiftr 0 63 >? 0) with false. cbv iota. lia.
Qed.
