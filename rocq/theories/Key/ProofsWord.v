From Verif.Common Require Import Bytes.
From Verif.Key Require Import Model Spec.
Local Open Scope Z_scope.

(* ---------- bit lemmas ---------- *)
Lemma land_pow2_small u k : 0 <= k -> 0 <= u < 2 ^ k -> Z.land u (2 ^ k) = 0.
Proof.
  intros Hk Hu. apply Z.bits_inj'. intros n Hn. rewrite Z.land_spec, Z.bits_0.
  destruct (Z.eq_dec n k) as [->|Ne].
  - destruct (Z.eq_dec u 0) as [->|Nz]; [rewrite Z.bits_0; reflexivity|].
    rewrite (Z.bits_above_log2 u k); [reflexivity|lia|].
    apply Z.log2_lt_pow2; lia.
  - rewrite Z.pow2_bits_false by lia. apply andb_false_r.
Qed.

Lemma lxor_sign u k : 0 <= k -> 0 <= u < 2 ^ (k + 1) ->
  Z.lxor u (2 ^ k) = if u <? 2 ^ k then u + 2 ^ k else u - 2 ^ k.
Proof.
  intros Hk Hu. rewrite Z.pow_add_r in Hu by lia. change (2^1) with 2 in Hu.
  destruct (Z.ltb_spec u (2 ^ k)).
  - symmetry. apply Z.add_nocarry_lxor. apply land_pow2_small; lia.
  - assert (E : u = Z.lxor (u - 2 ^ k) (2 ^ k)).
    { rewrite <- Z.add_nocarry_lxor; [lia|]. apply land_pow2_small; lia. }
    rewrite E at 1. rewrite Z.lxor_assoc, Z.lxor_nilpotent, Z.lxor_0_r. reflexivity.
Qed.

Lemma lor_sign_small u k : 0 <= k -> 0 <= u < 2 ^ k -> Z.lor u (2 ^ k) = u + 2 ^ k.
Proof.
  intros Hk Hu. pose proof (land_pow2_small u k Hk Hu) as E.
  rewrite <- Z.lxor_lor by exact E. symmetry. apply Z.add_nocarry_lxor. exact E.
Qed.

(* ---------- signed integers: encode = value + 2^(n-1) ---------- *)
Lemma encode_signed k x : 0 <= k -> - 2 ^ k <= x < 2 ^ k ->
  Z.lxor (to_unsigned (k + 1) x) (2 ^ k) = x + 2 ^ k.
Proof.
  intros Hk Hx. unfold to_unsigned.
  assert (P : 2 ^ (k + 1) = 2 * 2 ^ k) by (rewrite Z.pow_add_r by lia; change (2^1) with 2; lia).
  assert (0 < 2 ^ k) by (apply Z.pow_pos_nonneg; lia).
  assert (Hm := Z.mod_pos_bound x (2 ^ (k + 1)) ltac:(lia)).
  rewrite lxor_sign by lia.
  destruct (Z.lt_ge_cases x 0) as [Neg|Pos].
  - assert (E : x mod 2 ^ (k + 1) = x + 2 ^ (k + 1)).
    { symmetry. apply Zmod_unique with (-1); lia. }
    rewrite E, P. destruct (Z.ltb_spec (x + 2 * 2 ^ k) (2 ^ k)); lia.
  - rewrite Z.mod_small by lia. destruct (Z.ltb_spec x (2 ^ k)); lia.
Qed.

Lemma decode_signed k w : 0 <= k -> 0 <= w < 2 ^ (k + 1) ->
  to_signed (k + 1) (Z.lxor w (2 ^ k)) = w - 2 ^ k.
Proof.
  intros Hk Hw. rewrite lxor_sign by lia. unfold to_signed.
  replace (k + 1 - 1) with k by lia.
  assert (P : 2 ^ (k + 1) = 2 * 2 ^ k) by (rewrite Z.pow_add_r by lia; change (2^1) with 2; lia).
  assert (0 < 2 ^ k) by (apply Z.pow_pos_nonneg; lia).
  destruct (Z.ltb_spec w (2 ^ k)).
  - rewrite Z.mod_small by lia. destruct (Z.ltb_spec (w + 2 ^ k) (2 ^ k)); lia.
  - rewrite Z.mod_small by lia. destruct (Z.ltb_spec (w - 2 ^ k) (2 ^ k)); lia.
Qed.

Lemma encode_i8_val x : -128 <= x <= 127 -> encode_i8 x = x + 128.
Proof. intros H. apply (encode_signed 7); [lia|]. change (2^7) with 128. lia. Qed.
Lemma encode_i16_val x : -32768 <= x <= 32767 -> encode_i16 x = x + 32768.
Proof. intros H. apply (encode_signed 15); [lia|]. change (2^15) with 32768. lia. Qed.
Lemma encode_i32_val x : -2147483648 <= x <= 2147483647 -> encode_i32 x = x + 2147483648.
Proof. intros H. apply (encode_signed 31); [lia|]. change (2^31) with 2147483648. lia. Qed.
Lemma encode_i64_val x : -9223372036854775808 <= x <= 9223372036854775807 ->
  encode_i64 x = x + 9223372036854775808.
Proof. intros H. apply (encode_signed 63); [lia|]. change (2^63) with 9223372036854775808. lia. Qed.

Lemma decode_i8_val w : 0 <= w < 256 -> decode_i8 w = w - 128.
Proof. intros H. apply (decode_signed 7); [lia|]. change (2^(7+1)) with 256. lia. Qed.
Lemma decode_i16_val w : 0 <= w < 65536 -> decode_i16 w = w - 32768.
Proof. intros H. apply (decode_signed 15); [lia|]. change (2^(15+1)) with 65536. lia. Qed.
Lemma decode_i32_val w : 0 <= w < 4294967296 -> decode_i32 w = w - 2147483648.
Proof. intros H. apply (decode_signed 31); [lia|]. change (2^(31+1)) with 4294967296. lia. Qed.
Lemma decode_i64_val w : 0 <= w < 18446744073709551616 -> decode_i64 w = w - 9223372036854775808.
Proof. intros H. apply (decode_signed 63); [lia|]. change (2^(63+1)) with 18446744073709551616. lia. Qed.

(* ---------- byte swap ---------- *)
Lemma byte_at x i : 0 <= i -> (x / 2 ^ i) mod 256 = Z.land (Z.shiftr x i) 255.
Proof. intros. rewrite Z.shiftr_div_pow2 by lia. change 255 with (Z.ones 8). rewrite Z.land_ones by lia. reflexivity. Qed.

Ltac bit_cases n :=
  let H := fresh in
  assert (H : n = 0 \/ n = 1 \/ n = 2 \/ n = 3 \/ n = 4 \/ n = 5 \/ n = 6 \/ n = 7 \/ 8 <= n) by lia;
  destruct H as [H|[H|[H|[H|[H|[H|[H|[H|H]]]]]]]]; [subst n..|].

Ltac tb_const :=
  repeat match goal with
  | |- context [Z.testbit (Zpos ?p) ?i] =>
      let b := eval vm_compute in (Z.testbit (Zpos p) i) in
      change (Z.testbit (Zpos p) i) with b
  end.
Ltac tb_arith :=
  repeat match goal with
  | |- context [?a + ?b] => let c := eval vm_compute in (a + b) in
       match c with Zpos _ => change (a + b) with c | Z0 => change (a + b) with c | Zneg _ => change (a+b) with c end
  | |- context [?a - ?b] => let c := eval vm_compute in (a - b) in
       match c with Zpos _ => change (a - b) with c | Z0 => change (a - b) with c | Zneg _ => change (a - b) with c end
  end.

Lemma testbit_neg x n : n < 0 -> Z.testbit x n = false.
Proof. apply Z.testbit_neg_r. Qed.

Ltac swap_bits :=
  apply Z.bits_inj'; intros n Hn;
  bit_cases n;
  [ repeat (rewrite Z.land_spec || rewrite Z.lor_spec || (rewrite Z.shiftl_spec by lia) || (rewrite Z.shiftr_spec by lia));
    tb_arith; tb_const;
    rewrite ?(testbit_neg _ (Zneg _)) by lia;
    rewrite ?andb_true_r, ?andb_false_r, ?orb_false_r, ?orb_false_l; reflexivity ..
  | rewrite !Z.land_spec;
    replace (Z.testbit 255 n) with false by (symmetry; apply Z.bits_above_log2; [lia|change (Z.log2 255) with 7; lia]);
    rewrite !andb_false_r; reflexivity ].

Lemma swap16 x : 0 <= x < 65536 ->
  Z.land (Z.shiftr (to_endian_u16 false x) 0) 255 = Z.land (Z.shiftr x 8) 255 /\
  Z.land (Z.shiftr (to_endian_u16 false x) 8) 255 = Z.land (Z.shiftr x 0) 255.
Proof. intros H. unfold to_endian_u16. split; swap_bits. Qed.

Lemma swap32 x :
  Z.land (Z.shiftr (to_endian_u32 false x) 0) 255 = Z.land (Z.shiftr x 24) 255 /\
  Z.land (Z.shiftr (to_endian_u32 false x) 8) 255 = Z.land (Z.shiftr x 16) 255 /\
  Z.land (Z.shiftr (to_endian_u32 false x) 16) 255 = Z.land (Z.shiftr x 8) 255 /\
  Z.land (Z.shiftr (to_endian_u32 false x) 24) 255 = Z.land (Z.shiftr x 0) 255.
Proof. unfold to_endian_u32. repeat split; swap_bits. Qed.

Lemma swap64 x :
  Z.land (Z.shiftr (to_endian_u64 false x) 0) 255 = Z.land (Z.shiftr x 56) 255 /\
  Z.land (Z.shiftr (to_endian_u64 false x) 8) 255 = Z.land (Z.shiftr x 48) 255 /\
  Z.land (Z.shiftr (to_endian_u64 false x) 16) 255 = Z.land (Z.shiftr x 40) 255 /\
  Z.land (Z.shiftr (to_endian_u64 false x) 24) 255 = Z.land (Z.shiftr x 32) 255 /\
  Z.land (Z.shiftr (to_endian_u64 false x) 32) 255 = Z.land (Z.shiftr x 24) 255 /\
  Z.land (Z.shiftr (to_endian_u64 false x) 40) 255 = Z.land (Z.shiftr x 16) 255 /\
  Z.land (Z.shiftr (to_endian_u64 false x) 48) 255 = Z.land (Z.shiftr x 8) 255 /\
  Z.land (Z.shiftr (to_endian_u64 false x) 56) 255 = Z.land (Z.shiftr x 0) 255.
Proof. unfold to_endian_u64. repeat split; swap_bits. Qed.
