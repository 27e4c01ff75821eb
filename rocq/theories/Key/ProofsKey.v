From Verif.Common Require Import Bytes.
From Verif.Key Require Import Model Spec ProofsWord ProofsMem ProofsFloat.
Local Open Scope Z_scope.

(* ---------- one numeric field ---------- *)
Definition width (t : coltype) : nat :=
  match t with
  | INT8 | UINT8 | BOOL => 1
  | INT16 | UINT16 => 2
  | TIME | INT32 | TIMESTAMP | DATE | UINT32 | FLOAT => 4
  | INT64 | UINT64 | DATETIME | DOUBLE => 8
  | STRING | OTHER_TYPE => 0
  end%nat.

Definition ncode (t : coltype) (z : Z) : Z :=
  match t with
  | INT8 => z + 128
  | INT16 => z + 32768
  | TIME | INT32 => z + 2147483648
  | INT64 => z + 9223372036854775808
  | FLOAT => fcode 8 23 z
  | DOUBLE => fcode 11 52 z
  | _ => z
  end.

Definition nnorm (t : coltype) (z : Z) : Z :=
  match t with FLOAT => fnorm (2 ^ 31) z | DOUBLE => fnorm (2 ^ 63) z | _ => z end.

Lemma mod_small_id z m : 0 <= z < m -> z mod m = z.
Proof. intros. apply Z.mod_small. assumption. Qed.

Lemma to_signed_id k x : 0 < k -> - 2 ^ (k - 1) <= x < 2 ^ (k - 1) -> to_signed k x = x.
Proof.
  intros Hk Hx. unfold to_signed.
  assert (P : 2 ^ k = 2 * 2 ^ (k - 1)).
  { replace k with (1 + (k - 1)) at 1 by lia. rewrite Z.pow_add_r by lia. reflexivity. }
  assert (0 < 2 ^ (k - 1)) by (apply Z.pow_pos_nonneg; lia).
  destruct (Z.lt_ge_cases x 0).
  - replace (x mod 2 ^ k) with (x + 2 ^ k) by (apply Zmod_unique with (-1); lia).
    destruct (Z.ltb_spec (x + 2 ^ k) (2 ^ (k - 1))); lia.
  - rewrite Z.mod_small by lia. destruct (Z.ltb_spec x (2 ^ (k - 1))); lia.
Qed.

Lemma num_bound t z : value_ok t (VNum z) -> 0 <= ncode t z < 256 ^ Z.of_nat (width t).
Proof.
  destruct t; cbn [value_ok int_val_ok int_range ncode width]; unfold int_val_ok; cbn [int_range];
    intros H; try contradiction; try (cbn; lia).
  - destruct H as [H _]. pose proof (fcode_bound 8 23 ltac:(lia) ltac:(lia) z H) as B. exact B.
  - destruct H as [H _]. pose proof (fcode_bound 11 52 ltac:(lia) ltac:(lia) z H) as B. exact B.
Qed.

Lemma encode_num big t z lp : value_ok t (VNum z) ->
  encode_field big t (VNum z) lp = Some (be_bytes (width t) (ncode t z)).
Proof.
  intros H. pose proof (num_bound t z H) as B.
  destruct t; cbn [value_ok] in H; unfold int_val_ok in H; cbn [int_range] in H; try contradiction;
    cbn [encode_field width ncode] in *; f_equal.
  - (* BOOL *) unfold app_boolean. rewrite store1. f_equal. destruct (Z.eqb_spec z 0); lia.
  - unfold app_i8. rewrite store1. rewrite (to_signed_id 8) by (change (2 ^ (8-1)) with 128; lia).
    rewrite encode_i8_val by lia. reflexivity.
  - unfold app_i16. rewrite (to_signed_id 16) by (change (2 ^ (16-1)) with 32768; lia).
    rewrite encode_i16_val by lia. apply store2. exact B.
  - unfold app_i32. rewrite encode_i32_val by lia. apply store4.
  - unfold app_i32. rewrite encode_i32_val by lia. apply store4.
  - unfold app_i64. rewrite encode_i64_val by lia. apply store8.
  - unfold app_u8, to_unsigned. rewrite Z.mod_small by (change (2^8) with 256; lia). apply store1.
  - unfold app_u16, to_unsigned. rewrite Z.mod_small by (change (2^16) with 65536; lia). apply store2. exact B.
  - unfold app_u32, to_unsigned. rewrite Z.mod_small by (change (2^32) with 4294967296; lia). apply store4.
  - unfold app_u32, to_unsigned. rewrite Z.mod_small by (change (2^32) with 4294967296; lia). apply store4.
  - unfold app_u32, to_unsigned. rewrite Z.mod_small by (change (2^32) with 4294967296; lia). apply store4.
  - unfold app_u64, to_unsigned. rewrite Z.mod_small by (change (2^64) with 18446744073709551616; lia). apply store8.
  - unfold app_u64, to_unsigned. rewrite Z.mod_small by (change (2^64) with 18446744073709551616; lia). apply store8.
  - destruct H as [Hp Hn]. unfold app_float. rewrite (encode_f32_code z Hp Hn). apply store4.
  - destruct H as [Hp Hn]. unfold app_double. rewrite (encode_f64_code z Hp Hn). apply store8.
Qed.

Lemma ncode_compare t z u : value_ok t (VNum z) -> value_ok t (VNum u) ->
  (ncode t z ?= ncode t u) = value_compare t (VNum z) (VNum u).
Proof.
  intros Hz Hu.
  destruct t; cbn [value_ok] in *; try contradiction; cbn [ncode value_compare]; try reflexivity;
    try (rewrite (Z.add_comm z), (Z.add_comm u); apply Z.add_compare_mono_l).
  - apply fcode_compare; [lia|lia|apply Hz|apply Hu].
  - apply fcode_compare; [lia|lia|apply Hz|apply Hu].
Qed.

(* ---------- reading at a position ---------- *)
Lemma peek_mid pre a post n : length a = n -> peek (pre ++ a ++ post) (length pre) n = Some a.
Proof.
  intros <-. unfold peek. rewrite !app_length.
  destruct (Nat.leb_spec (length pre + length a) (length pre + (length a + length post))); [|lia].
  rewrite skipn_app, skipn_all2, Nat.sub_diag by lia. cbn [skipn app].
  rewrite firstn_app, Nat.sub_diag, firstn_all2 by lia. cbn [firstn]. rewrite app_nil_r. reflexivity.
Qed.

Lemma word_mid big pre n w post :
  extract_word big (pre ++ be_bytes n w ++ post) (length pre) n = Some (mem_to big (be_bytes n w)).
Proof. unfold extract_word. rewrite peek_mid by apply be_bytes_length. reflexivity. Qed.

Lemma fixed_mid pre n w post x :
  fixed (pre ++ be_bytes n w ++ post) (length pre) n (Some x) = DOk (VNum x, (length pre + n)%nat).
Proof.
  unfold fixed. rewrite !app_length, be_bytes_length.
  destruct (Nat.ltb_spec (length pre + (n + length post)) (length pre + n)); [lia|reflexivity].
Qed.

Lemma decode_num big t z pre post : value_ok t (VNum z) ->
  decode_field big (pre ++ be_bytes (width t) (ncode t z) ++ post) t (length pre) =
  DOk (VNum (nnorm t z), (length pre + width t)%nat).
Proof.
  intros H. pose proof (num_bound t z H) as B.
  destruct t; cbn [value_ok] in H; unfold int_val_ok in H; cbn [int_range] in H; try contradiction;
  cbn [decode_field width nnorm] in *;
  unfold extract_i8, extract_i16, extract_i32, extract_i64, extract_u8, extract_u16, extract_u32, extract_u64,
    extract_float, extract_double, extract_boolean;
  rewrite word_mid; cbn [omap];
  rewrite ?load2, ?load4, ?load8 by exact B; rewrite ?load1 by exact B;
  rewrite fixed_mid; do 2 f_equal; cbn [ncode] in *.
  - f_equal. destruct (Z.eqb_spec z 0); lia.
  - rewrite decode_i8_val by exact B. f_equal. lia.
  - rewrite decode_i16_val by exact B. f_equal. lia.
  - rewrite decode_i32_val by exact B. f_equal. lia.
  - rewrite decode_i32_val by exact B. f_equal. lia.
  - rewrite decode_i64_val by exact B. f_equal. lia.
  - rewrite decode_f32_code by apply H. reflexivity.
  - rewrite decode_f64_code by apply H. reflexivity.
Qed.

(* ---------- strings ---------- *)
Lemma nul_compare a b s t : no_nul a -> no_nul b ->
  bcompare ((a ++ [0]) ++ s) ((b ++ [0]) ++ t) = match bcompare a b with Eq => bcompare s t | c => c end.
Proof.
  intros Ha. revert b. induction Ha as [|x a Hx Ha IH]; intros b Hb; destruct Hb as [|y b Hy Hb]; cbn [app bcompare].
  - reflexivity.
  - destruct (Z.compare_spec 0 y); [lia|reflexivity|lia].
  - destruct (Z.compare_spec x 0); [lia|lia|reflexivity].
  - destruct (x ?= y); [apply IH; exact Hb|reflexivity|reflexivity].
Qed.

Lemma cstring_mid s post : no_nul s -> cstring (s ++ 0 :: post) = Some s.
Proof.
  induction 1 as [|b s Hb Hs IH]; cbn; [reflexivity|].
  destruct (Z.eqb_spec b 0); [lia|]. rewrite IH. reflexivity.
Qed.

Lemma decode_str big s pre post : no_nul s ->
  decode_field big (pre ++ (s ++ [0]) ++ post) STRING (length pre) = DOk (VStr s, (length pre + length (s ++ [0]%Z))%nat).
Proof.
  intros H. cbn [decode_field]. rewrite !app_length. cbn [length].
  destruct (Nat.leb_spec (length pre + (length s + 1 + length post)) (length pre)); [lia|].
  unfold extract_string. rewrite skipn_app, skipn_all2, Nat.sub_diag by lia. cbn [skipn app].
  rewrite <- app_assoc. cbn [app]. rewrite cstring_mid by exact H. do 2 f_equal. lia.
Qed.

(* ---------- one field ---------- *)
Definition norm (t : coltype) (v : value) : value :=
  match v with VNum z => VNum (nnorm t z) | VStr s => VStr s end.

Lemma fnorm_num eb fb x : 1 <= eb -> 1 <= fb -> float_pattern eb fb x ->
  float_num eb fb (fnorm (2 ^ (eb + fb)) x) = float_num eb fb x /\ float_pattern eb fb (fnorm (2 ^ (eb + fb)) x).
Proof.
  intros He Hf Hp. pose proof (S_pos eb fb He Hf) as HS. pose proof (pat_S eb fb He Hf x Hp).
  unfold fnorm. destruct (Z.eqb_spec x (2 ^ (eb + fb))) as [->|]; [|auto]. split.
  - rewrite (num_pos eb fb 0) by lia. rewrite (num_neg eb fb) by lia.
    replace (2 ^ (eb + fb) - 2 ^ (eb + fb)) with 0 by lia. rewrite (fmag_0 eb fb Hf). reflexivity.
  - unfold float_pattern in *. lia.
Qed.

Lemma norm_same t v : value_ok t v -> same_value t v (norm t v).
Proof.
  intros H. unfold same_value. split; [exact H|].
  assert (R : forall x, (x ?= x) = Eq) by apply Z.compare_refl.
  destruct t, v as [z|s]; cbn [value_ok norm nnorm value_compare] in *;
    unfold int_val_ok in *; cbn [int_range] in *; try contradiction; auto.
  - destruct H as [Hp Hn]. change (2 ^ 31) with (2 ^ (8 + 23)).
    destruct (fnorm_num 8 23 z ltac:(lia) ltac:(lia) Hp) as [E P]. rewrite E. repeat split; auto.
    + apply P. + apply P.
    + unfold fnorm. destruct (z =? 2 ^ (8 + 23)); [|exact Hn]. unfold float_nan. cbn. lia.
  - destruct H as [Hp Hn]. change (2 ^ 63) with (2 ^ (11 + 52)).
    destruct (fnorm_num 11 52 z ltac:(lia) ltac:(lia) Hp) as [E P]. rewrite E. repeat split; auto.
    + apply P. + apply P.
    + unfold fnorm. destruct (z =? 2 ^ (11 + 52)); [|exact Hn]. unfold float_nan. cbn. lia.
  - split; [exact H|apply bcompare_refl].
Qed.

Definition fenc (t : coltype) (v : value) : list Z :=
  match v with VNum z => be_bytes (width t) (ncode t z) | VStr s => s ++ [0] end.

Lemma encode_field_fenc big t v : value_ok t v -> encode_field big t v false = Some (fenc t v).
Proof.
  intros H. destruct v as [z|s].
  - apply encode_num. exact H.
  - destruct t; cbn in H; try contradiction. reflexivity.
Qed.

Lemma fenc_compare t v w s u : value_ok t v -> value_ok t w ->
  bcompare (fenc t v ++ s) (fenc t w ++ u) =
  match value_compare t v w with Eq => bcompare s u | c => c end.
Proof.
  intros Hv Hw. destruct v as [z|a], w as [y|b]; cbn [fenc].
  - rewrite bcompare_app_len by (rewrite !be_bytes_length; reflexivity).
    rewrite bcompare_be by (apply num_bound; assumption).
    rewrite ncode_compare by assumption. reflexivity.
  - destruct t; cbn in Hv, Hw; contradiction.
  - destruct t; cbn in Hv, Hw; contradiction.
  - destruct t; cbn in Hv, Hw; try contradiction. rewrite nul_compare by assumption. reflexivity.
Qed.

Lemma decode_fenc big t v pre post : value_ok t v ->
  decode_field big (pre ++ fenc t v ++ post) t (length pre) =
  DOk (norm t v, (length pre + length (fenc t v))%nat).
Proof.
  intros H. destruct v as [z|s]; cbn [fenc norm].
  - rewrite decode_num by exact H. rewrite be_bytes_length. reflexivity.
  - destruct t; cbn in H; try contradiction. apply decode_str. exact H.
Qed.

(* ---------- whole tuples ---------- *)
Fixpoint tenc (ts : list coltype) (vs : list value) : list Z :=
  match ts, vs with t :: ts', v :: vs' => fenc t v ++ tenc ts' vs' | _, _ => [] end.

Lemma tenc_compare ts a b s u :
  Forall2 value_ok ts a -> Forall2 value_ok ts b ->
  bcompare (tenc ts a ++ s) (tenc ts b ++ u) =
  match tuple_compare ts a b with Eq => bcompare s u | c => c end.
Proof.
  intros Ha. revert b. induction Ha as [|t v ts a Hv Ha IH]; intros b Hb; inversion Hb; subst; [reflexivity|].
  cbn [tenc tuple_compare]. rewrite <- !app_assoc. rewrite fenc_compare by assumption.
  destruct (value_compare t v y); [apply IH; assumption|reflexivity|reflexivity].
Qed.

Lemma default_ok t : t <> OTHER_TYPE -> value_ok t (default_value t).
Proof.
  intros H. destruct t; cbn; unfold int_val_ok; cbn [int_range]; try lia; try congruence.
  - split; [split; cbn; lia|unfold float_nan; cbn; lia].
  - split; [split; cbn; lia|unfold float_nan; cbn; lia].
  - constructor.
Qed.

Lemma col_value_ok r f v : f_type f <> OTHER_TYPE ->
  (forall v, r (f_pb_idx f) = Some v -> value_ok (f_type f) v) ->
  col_value r f = Some v -> value_ok (f_type f) v.
Proof.
  intros Ht Hr. unfold col_value. destruct (r (f_pb_idx f)) as [x|].
  - intros [= <-]. auto.
  - destruct (f_can_null f); [discriminate|]. intros [= <-]. apply default_ok. exact Ht.
Qed.

(* encoded non-null columns *)
Fixpoint cenc (ts : list coltype) (vs : list (option value)) : list Z :=
  match ts, vs with
  | t :: ts', Some v :: vs' => fenc t v ++ cenc ts' vs'
  | _ :: ts', None :: vs' => cenc ts' vs'
  | _, _ => []
  end.

(* null flag contributed by columns from index idx on *)
Fixpoint pflag (idx : nat) (vs : list (option value)) : Z :=
  match vs with
  | [] => 0
  | None :: vs' => 2 ^ (7 - Z.of_nat idx) + pflag (S idx) vs'
  | Some _ :: vs' => pflag (S idx) vs'
  end.

Lemma pflag_bound vs : forall idx, (idx + length vs <= 8)%nat -> 0 <= pflag idx vs < 2 ^ (8 - Z.of_nat idx).
Proof.
  induction vs as [|[v|] vs IH]; intros idx H; cbn [pflag length] in *.
  - split; [lia|]. apply Z.pow_pos_nonneg; lia.
  - specialize (IH (S idx) ltac:(lia)).
    assert (2 ^ (8 - Z.of_nat (S idx)) <= 2 ^ (8 - Z.of_nat idx)) by (apply Z.pow_le_mono_r; lia). lia.
  - specialize (IH (S idx) ltac:(lia)).
    replace (8 - Z.of_nat (S idx)) with (7 - Z.of_nat idx) in IH by lia.
    replace (8 - Z.of_nat idx) with (1 + (7 - Z.of_nat idx)) by lia.
    rewrite Z.pow_add_r by lia. change (2 ^ 1) with 2. lia.
Qed.

Lemma pflag_no_null vs : forall idx, Forall (fun v => v <> None) vs -> pflag idx vs = 0.
Proof.
  induction vs as [|[v|] vs IH]; intros idx H; cbn [pflag]; inversion H; subst; auto; congruence.
Qed.

Lemma pflag_compare a : forall b idx, length a = length b -> (idx + length a <= 8)%nat ->
  (pflag idx a ?= pflag idx b) = null_pattern_compare a b.
Proof.
  induction a as [|x a IH]; intros [|y b] idx Hl Hi; cbn [length] in *; try discriminate; [reflexivity|].
  pose proof (pflag_bound a (S idx) ltac:(lia)) as Ba. pose proof (pflag_bound b (S idx) ltac:(lia)) as Bb.
  replace (8 - Z.of_nat (S idx)) with (7 - Z.of_nat idx) in * by lia.
  destruct x as [x|], y as [y|]; cbn [pflag null_pattern_compare].
  - apply IH; lia.
  - apply Z.compare_lt_iff. lia.
  - apply Z.compare_gt_iff. lia.
  - rewrite Z.add_compare_mono_l. apply IH; lia.
Qed.

Lemma lor_flag hi idx : (idx <= 7)%nat ->
  Z.lor (hi * 2 ^ (8 - Z.of_nat idx)) (Z.shiftl 1 (7 - Z.of_nat idx)) =
  (2 * hi + 1) * 2 ^ (8 - Z.of_nat (S idx)).
Proof.
  intros H. rewrite Z.shiftl_mul_pow2, Z.mul_1_l by lia.
  replace (8 - Z.of_nat (S idx)) with (7 - Z.of_nat idx) by lia.
  replace (8 - Z.of_nat idx) with (1 + (7 - Z.of_nat idx)) by lia.
  set (k := 7 - Z.of_nat idx). assert (0 <= k) by lia. rewrite Z.pow_add_r by lia. change (2 ^ 1) with 2.
  assert (E : Z.land (hi * (2 * 2 ^ k)) (2 ^ k) = 0).
  { apply Z.bits_inj'. intros n Hn. rewrite Z.land_spec, Z.bits_0.
    destruct (Z.eq_dec n k) as [->|Ne]; [|rewrite Z.pow2_bits_false by lia; apply andb_false_r].
    replace (hi * (2 * 2 ^ k)) with ((2 * hi) * 2 ^ k) by lia.
    rewrite Z.mul_pow2_bits by lia. replace (k - k) with 0 by lia.
    rewrite Z.testbit_even_0. reflexivity. }
  rewrite <- Z.lxor_lor by exact E. rewrite <- Z.add_nocarry_lxor by exact E. lia.
Qed.

(* the secondary-index loop, nullable columns only within the first 8 *)
Lemma enc_loop_sec big t r fs : forall idx hi,
  has_null_flag t = true -> row_ok r fs ->
  (existsb f_can_null fs = true -> (idx + length fs <= 8)%nat) ->
  ((idx <= 8)%nat \/ hi = 0) ->
  exists flag', encode_key_loop big t r fs idx (hi * 2 ^ (8 - Z.of_nat idx)) false =
     FOk (cenc (map f_type fs) (map (col_value r) fs)) flag' /\
     (flag' = hi * 2 ^ (8 - Z.of_nat idx) + pflag idx (map (col_value r) fs)).
Proof.
  induction fs as [|f fs IH]; intros idx hi Ht Hr Hn Hi.
  - exists (hi * 2 ^ (8 - Z.of_nat idx)). split; [reflexivity|cbn; lia].
  - inversion Hr as [|? ? [Hty Hf] Hr']; subst. cbn [map cenc encode_key_loop andb].
    cbn [existsb length] in Hn.
    assert (Hn' : existsb f_can_null fs = true -> (S idx + length fs <= 8)%nat).
    { intros E. rewrite E, orb_true_r in Hn. specialize (Hn eq_refl). lia. }
    assert (Henc : forall v, value_ok (f_type f) v ->
      match encode_field big (f_type f) v false with Some b => FOk b (hi * 2 ^ (8 - Z.of_nat idx)) | None => FErr (-1) end
      = FOk (fenc (f_type f) v) (hi * 2 ^ (8 - Z.of_nat idx))).
    { intros v Hv. rewrite encode_field_fenc by exact Hv. reflexivity. }
    assert (Hsome : forall v, col_value r f = Some v ->
      encode_key_col big t r f idx (hi * 2 ^ (8 - Z.of_nat idx)) false =
      FOk (fenc (f_type f) v) (hi * 2 ^ (8 - Z.of_nat idx))).
    { intros v Hv. pose proof (col_value_ok r f v Hty Hf Hv) as Hok. unfold col_value in Hv.
      unfold encode_key_col. destruct (r (f_pb_idx f)) as [x|].
      - injection Hv as ->. destruct t; cbn in Ht; try discriminate; apply Henc; exact Hok.
      - destruct (f_can_null f); [discriminate|]. injection Hv as <-. cbn [negb].
        destruct t; cbn in Ht; try discriminate; apply Henc; exact Hok. }
    destruct (col_value r f) as [v|] eqn:Ev.
    + rewrite (Hsome v eq_refl).
      (* hi * 2^(8-idx) = (2*hi) * 2^(8-S idx) unless beyond 8 where it is 0 *)
      destruct (Nat.le_gt_cases idx 7) as [L|G].
      * assert (E : hi * 2 ^ (8 - Z.of_nat idx) = (2 * hi) * 2 ^ (8 - Z.of_nat (S idx))).
        { replace (8 - Z.of_nat idx) with (1 + (8 - Z.of_nat (S idx))) by lia.
          rewrite Z.pow_add_r by lia. change (2 ^ 1) with 2. lia. }
        rewrite E. destruct (IH (S idx) (2 * hi) Ht Hr' Hn' ltac:(lia)) as (fl & -> & Hfl).
        exists fl. split; [reflexivity|]. cbn [pflag]. lia.
      * assert (Hz : hi * 2 ^ (8 - Z.of_nat idx) = 0 * 2 ^ (8 - Z.of_nat (S idx)) \/ idx = 8%nat).
        { destruct Hi as [Hi|Hi]; [right; lia|left; rewrite Hi; lia]. }
        destruct Hz as [Hz|Hz].
        -- rewrite Hz. destruct (IH (S idx) 0 Ht Hr' Hn' ltac:(lia)) as (fl & -> & Hfl).
           exists fl. split; [reflexivity|]. cbn [pflag]. lia.
        -- subst idx.
           assert (hi * 2 ^ (8 - Z.of_nat 8) = hi) by (cbn; lia).
           (* idx = 8: the flag no longer changes *)
           assert (NoNull : existsb f_can_null fs = false).
           { destruct (existsb f_can_null fs); [specialize (Hn' eq_refl); lia|reflexivity]. }
           clear IH.
           assert (G2 : forall fs j, existsb f_can_null fs = false -> row_ok r fs ->
             encode_key_loop big t r fs j hi false =
               FOk (cenc (map f_type fs) (map (col_value r) fs)) hi /\
             Forall (fun v => v <> None) (map (col_value r) fs)).
           { clear - Ht. intros fs. induction fs as [|g gs IHg]; intros j E Hr; [split; [reflexivity|constructor]|].
             cbn [existsb] in E. apply orb_false_iff in E. destruct E as [Eg Egs].
             inversion Hr as [|? ? [Hty Hf] Hr']; subst. cbn [map cenc encode_key_loop andb].
             destruct (IHg (S j) Egs Hr') as [IH1 IH2].
             assert (exists v, col_value r g = Some v /\ encode_key_col big t r g j hi false = FOk (fenc (f_type g) v) hi) as (v & Ev & Ec).
             { pose proof (col_value_ok r g) as OK. unfold col_value in *. unfold encode_key_col. rewrite Eg in *.
               destruct (r (f_pb_idx g)) as [x|].
               - exists x. split; [reflexivity|]. rewrite encode_field_fenc by (apply OK; auto).
                 destruct t; cbn in Ht; try discriminate; reflexivity.
               - exists (default_value (f_type g)). split; [reflexivity|]. cbn [negb].
                 rewrite encode_field_fenc by (apply OK; auto).
                 destruct t; cbn in Ht; try discriminate; reflexivity. }
             rewrite Ev, Ec, IH1. split; [reflexivity|]. constructor; [congruence|exact IH2]. }
           rewrite H. destruct (G2 fs 9%nat NoNull Hr') as [G3 G4]. rewrite G3.
           exists hi. split; [reflexivity|]. cbn [pflag]. rewrite pflag_no_null by exact G4. lia.
    + (* a NULL column *)
      assert (Cn : f_can_null f = true /\ r (f_pb_idx f) = None).
      { unfold col_value in Ev. destruct (r (f_pb_idx f)); [discriminate|]. destruct (f_can_null f); [auto|discriminate]. }
      destruct Cn as [Cn Rn]. rewrite Cn in Hn. cbn [orb] in Hn. specialize (Hn eq_refl).
      assert (Ec : encode_key_col big t r f idx (hi * 2 ^ (8 - Z.of_nat idx)) false =
                   FOk [] ((2 * hi + 1) * 2 ^ (8 - Z.of_nat (S idx)))).
      { unfold encode_key_col. rewrite Rn, Cn. cbn [negb].
        destruct (Z.ltb_spec 7 (Z.of_nat idx)); [lia|].
        rewrite lor_flag by lia. destruct t; cbn in Ht; try discriminate; reflexivity. }
      rewrite Ec. destruct (IH (S idx) (2 * hi + 1) Ht Hr' Hn' ltac:(lia)) as (fl & -> & Hfl).
      exists fl. split; [reflexivity|]. cbn [pflag]. rewrite Hfl.
      replace (8 - Z.of_nat idx) with (1 + (8 - Z.of_nat (S idx))) by lia.
      rewrite Z.pow_add_r by lia. change (2 ^ 1) with 2.
      replace (7 - Z.of_nat idx) with (8 - Z.of_nat (S idx)) by lia. lia.
Qed.

(* the primary-key loop *)
Lemma enc_loop_pri big t r fs vs : forall idx flag,
  (t = I_PRIMARY \/ t = I_FULLTEXT) -> row_has r fs vs ->
  encode_key_loop big t r fs idx flag false = FOk (tenc (map f_type fs) vs) flag.
Proof.
  intros idx flag Ht Hr. revert idx. induction Hr as [|f v fs vs [Hv Hok] Hr IH]; intros idx; [reflexivity|].
  cbn [encode_key_loop map tenc andb]. unfold encode_key_col. rewrite Hv.
  rewrite encode_field_fenc by exact Hok.
  destruct Ht as [->| ->]; cbv iota; rewrite IH; reflexivity.
Qed.

Lemma row_has_ok r fs vs : row_has r fs vs -> Forall2 value_ok (map f_type fs) vs.
Proof. induction 1 as [|f v fs vs [_ H] _ IH]; cbn; constructor; auto. Qed.

Lemma row_has_length r fs vs : row_has r fs vs -> length fs = length vs.
Proof. induction 1; cbn; auto. Qed.

(* full encode_key on a primary index *)
Lemma encode_key_primary big fs pk r vs pre :
  row_has r fs vs -> (existsb f_can_null fs = true -> (length fs <= 8)%nat) ->
  encode_key big (make_index I_PRIMARY fs pk) r pre (-1) false =
  EOk (pre ++ tenc (map f_type fs) vs) true.
Proof.
  intros Hr Hn. unfold encode_key, make_index. cbn [ix_type ix_fields ix_has_nullable].
  change (-1 =? -1) with true. cbv iota.
  destruct (Z.ltb_spec (Z.of_nat (length fs)) (Z.of_nat (length fs))); [lia|]. cbn [orb].
  assert (E : existsb f_can_null fs && (8 <? Z.of_nat (length fs)) = false).
  { destruct (existsb f_can_null fs); [|reflexivity]. specialize (Hn eq_refl). cbn [andb]. apply Z.ltb_ge. lia. }
  rewrite E. rewrite Nat2Z.id, firstn_all.
  rewrite enc_loop_pri with (vs := vs) by auto. cbn [app]. rewrite Z.eqb_refl. reflexivity.
Qed.

Lemma encode_key_secondary big t fs pk r pre :
  t = I_KEY \/ t = I_UNIQ -> row_ok r fs -> (existsb f_can_null fs = true -> (length fs <= 8)%nat) ->
  exists full, encode_key big (make_index t fs pk) r pre (-1) false =
  EOk (pre ++ [pflag 0 (map (col_value r) fs)] ++ cenc (map f_type fs) (map (col_value r) fs)) full.
Proof.
  intros Ht Hr Hn. unfold encode_key, make_index. cbn [ix_type ix_fields ix_has_nullable].
  change (-1 =? -1) with true. cbv iota.
  destruct (Z.ltb_spec (Z.of_nat (length fs)) (Z.of_nat (length fs))); [lia|]. cbn [orb].
  assert (E : existsb f_can_null fs && (8 <? Z.of_nat (length fs)) = false).
  { destruct (existsb f_can_null fs); [|reflexivity]. specialize (Hn eq_refl). cbn [andb]. apply Z.ltb_ge. lia. }
  assert (Hf : has_null_flag t = true) by (destruct Ht as [->| ->]; reflexivity).
  destruct (enc_loop_sec big t r fs 0 0 Hf Hr Hn ltac:(lia)) as (fl & El & Hfl).
  rewrite Z.mul_0_l in El, Hfl. rewrite Z.add_0_l in Hfl.
  destruct Ht as [->| ->]; cbv iota; rewrite E, Nat2Z.id, firstn_all, El, Hfl; eexists; reflexivity.
Qed.

(* ---------- decoding ---------- *)
Lemma set_field_same r i v : set_field r i v i = Some v.
Proof. unfold set_field. rewrite Z.eqb_refl. reflexivity. Qed.
Lemma set_field_other r i v j : j <> i -> set_field r i v j = r j.
Proof. intros H. unfold set_field. destruct (Z.eqb_spec j i); congruence. Qed.

Lemma odd_flag hi idx vs v : (idx + length (v :: vs) <= 8)%nat ->
  Z.odd (Z.shiftr (hi * 2 ^ (8 - Z.of_nat idx) + pflag idx (v :: vs)) (7 - Z.of_nat idx)) =
  match v with None => true | Some _ => false end.
Proof.
  intros H. cbn [length] in H. pose proof (pflag_bound vs (S idx) ltac:(lia)) as B.
  replace (8 - Z.of_nat (S idx)) with (7 - Z.of_nat idx) in B by lia.
  rewrite Z.shiftr_div_pow2 by lia.
  replace (8 - Z.of_nat idx) with (1 + (7 - Z.of_nat idx)) by lia. rewrite Z.pow_add_r by lia. change (2 ^ 1) with 2.
  set (p := 2 ^ (7 - Z.of_nat idx)) in *.
  destruct v as [v|]; cbn [pflag]; fold p.
  - replace ((hi * (2 * p) + pflag (S idx) vs) / p) with (2 * hi).
    + rewrite Z.odd_mul. reflexivity.
    + apply Z.div_unique with (pflag (S idx) vs); lia.
  - replace ((hi * (2 * p) + (p + pflag (S idx) vs)) / p) with (2 * hi + 1).
    + rewrite Z.odd_add, Z.odd_mul. reflexivity.
    + apply Z.div_unique with (pflag (S idx) vs); lia.
Qed.

Lemma dec_loop oversh big r fs : forall idx hi pre post r0,
  oversh 0 = Some 0 -> row_ok r fs -> distinct_cols fs ->
  (existsb f_can_null fs = true -> (idx + length fs <= 8)%nat) ->
  ((idx + length fs <= 8)%nat \/ (hi * 2 ^ (8 - Z.of_nat idx) + pflag idx (map (col_value r) fs) = 0)) ->
  exists r', decode_key_loop oversh big
      (pre ++ cenc (map f_type fs) (map (col_value r) fs) ++ post)
      (hi * 2 ^ (8 - Z.of_nat idx) + pflag idx (map (col_value r) fs)) fs idx r0 (length pre)
    = DOk (r', (length pre + length (cenc (map f_type fs) (map (col_value r) fs)))%nat)
    /\ Forall (decoded_col r r0 r') fs
    /\ (forall i, ~ In i (map f_pb_idx fs) -> r' i = r0 i).
Proof.
  induction fs as [|f fs IH]; intros idx hi pre post r0 Ho Hr Hd Hn Hz.
  - exists r0. cbn. rewrite Nat.add_0_r. split; [reflexivity|]. split; [constructor|auto].
  - inversion Hr as [|? ? [Hty Hf] Hr']; subst. inversion Hd as [|? ? Hnin Hd']; subst.
    cbn [existsb length] in Hn.
    assert (Hn' : existsb f_can_null fs = true -> (S idx + length fs <= 8)%nat).
    { intros E. rewrite E, orb_true_r in Hn. specialize (Hn eq_refl). lia. }
    set (flag := hi * 2 ^ (8 - Z.of_nat idx) + pflag idx (map (col_value r) (f :: fs))) in *.
    assert (Hbit : null_bit oversh flag idx = Some (match col_value r f with None => true | Some _ => false end) \/
                   (null_bit oversh flag idx = Some false /\ f_can_null f = false)).
    { unfold null_bit. destruct (Z.ltb_spec 7 (Z.of_nat idx)).
      - right. destruct Hz as [Hz|Hz]; [cbn [length] in Hz; lia|]. rewrite Hz, Ho. cbn.
        destruct (f_can_null f); [|auto]. specialize (Hn eq_refl). lia.
      - destruct Hz as [Hz|Hz].
        + left. unfold flag. cbn [map]. rewrite odd_flag by (cbn [length] in *; rewrite map_length; lia). reflexivity.
        + left. rewrite Hz. rewrite Z.shiftr_0_l. cbn [Z.odd]. f_equal.
          destruct (col_value r f) eqn:Ev; [reflexivity|].
          exfalso.
          assert (f_can_null f = true).
          { unfold col_value in Ev. destruct (r (f_pb_idx f)); [discriminate|]. destruct (f_can_null f); [auto|discriminate]. }
          rewrite H0 in Hn. cbn [orb] in Hn. specialize (Hn eq_refl).
          pose proof (odd_flag hi idx (map (col_value r) fs) None ltac:(cbn [length]; rewrite map_length; lia)) as O.
          unfold flag in Hz. cbn [map] in Hz. rewrite Ev in Hz. rewrite Hz in O.
          rewrite Z.shiftr_0_l in O. discriminate. }
    assert (Hnext : exists hi', flag = hi' * 2 ^ (8 - Z.of_nat (S idx)) + pflag (S idx) (map (col_value r) fs)).
    { unfold flag. destruct (Nat.le_gt_cases idx 7) as [L|G].
      - replace (8 - Z.of_nat idx) with (1 + (8 - Z.of_nat (S idx))) by lia. rewrite Z.pow_add_r by lia. change (2 ^ 1) with 2.
        cbn [map pflag]. destruct (col_value r f).
        + exists (2 * hi). lia.
        + exists (2 * hi + 1). replace (7 - Z.of_nat idx) with (8 - Z.of_nat (S idx)) by lia. lia.
      - destruct Hz as [Hz|Hz]; [cbn [length] in Hz; lia|]. fold flag. rewrite Hz.
        exists 0. assert (Nn : Forall (fun v => v <> None) (map (col_value r) fs)).
        { assert (E : existsb f_can_null fs = false).
          { destruct (existsb f_can_null fs); [specialize (Hn' eq_refl); lia|reflexivity]. }
          clear - E. induction fs as [|g gs IHg]; cbn; constructor.
          - cbn in E. apply orb_false_iff in E. destruct E as [E _]. unfold col_value. rewrite E.
            destruct (r (f_pb_idx g)); congruence.
          - apply IHg. cbn in E. apply orb_false_iff in E. apply E. }
        rewrite pflag_no_null by exact Nn. lia. }
    destruct Hnext as [hi' Hflag].
    assert (Hz' : (S idx + length fs <= 8)%nat \/ hi' * 2 ^ (8 - Z.of_nat (S idx)) + pflag (S idx) (map (col_value r) fs) = 0).
    { destruct Hz as [Hz|Hz]; [left; cbn [length] in Hz; lia|right; rewrite <- Hflag; exact Hz]. }
    cbn [decode_key_loop].
    destruct (col_value r f) as [v|] eqn:Ev.
    + assert (Hb : exists b, null_bit oversh flag idx = Some b /\ b && f_can_null f = false).
      { destruct Hbit as [Hb|[Hb Hc]]; [exists false|exists false]; auto. }
      destruct Hb as (b & -> & ->).
      pose proof (col_value_ok r f v Hty Hf Ev) as Hok.
      cbn [map cenc]. rewrite Ev. rewrite <- !app_assoc.
      rewrite decode_fenc by exact Hok.
      replace (length pre + length (fenc (f_type f) v))%nat with (length (pre ++ fenc (f_type f) v)) by apply app_length.
      rewrite app_assoc. rewrite Hflag.
      destruct (IH (S idx) hi' (pre ++ fenc (f_type f) v) post (set_field r0 (f_pb_idx f) (norm (f_type f) v)) Ho Hr' Hd' Hn' Hz')
        as (r' & -> & Hdec & Hoth).
      exists r'. rewrite !app_length. split; [f_equal; f_equal; lia|]. split.
      * constructor.
        -- unfold decoded_col. rewrite Ev. exists (norm (f_type f) v). split; [|apply norm_same; exact Hok].
           rewrite Hoth by exact Hnin. apply set_field_same.
        -- rewrite Forall_forall in *. intros g Hg. specialize (Hdec g Hg). unfold decoded_col in *.
           destruct (col_value r g); [exact Hdec|]. rewrite Hdec. apply set_field_other.
           intros E. apply Hnin. rewrite <- E. apply in_map. exact Hg.
      * intros i Hi. cbn [map] in Hi. rewrite Hoth by (intros X; apply Hi; right; exact X).
        apply set_field_other. intros ->. apply Hi. left. reflexivity.
    + assert (Cn : f_can_null f = true).
      { unfold col_value in Ev. destruct (r (f_pb_idx f)); [discriminate|]. destruct (f_can_null f); [auto|discriminate]. }
      destruct Hbit as [Hb|[_ Hc]]; [|congruence]. rewrite Hb, Cn. cbn [andb map cenc]. rewrite Ev.
      rewrite Hflag.
      destruct (IH (S idx) hi' pre post r0 Ho Hr' Hd' Hn' Hz') as (r' & -> & Hdec & Hoth).
      exists r'. split; [reflexivity|]. split.
      * constructor; [|exact Hdec]. unfold decoded_col. rewrite Ev. apply Hoth. exact Hnin.
      * intros i Hi. apply Hoth. intros X. apply Hi. right. exact X.
Qed.
