(* Binary result rows. *)
From Coq Require Import ZArith List Bool Lia.
From Verif Require Import Common.Bytes Date.Model Date.Spec Date.Reading Date.ProofsCal Date.ProofsTime Date.ProofsPack Date.ProofsDur
  Proto.Spec Proto.Model Proto.Reading Proto.ProofsText.
Import ListNotations.
Local Open Scope Z_scope.

(* ---- the NULL bitmap ---- *)
Lemma set_nth_length i f l : length (set_nth i f l) = length l.
Proof. revert i; induction l as [|x l IH]; intros [|i]; cbn [set_nth length]; auto. Qed.
Lemma nth_set_nth i f : forall l j, (i < length l)%nat -> nth j (set_nth i f l) 0 = if (j =? i)%nat then f (nth j l 0) else nth j l 0.
Proof.
  induction i as [|i IH]; intros [|x l] j L; cbn [length] in L; try lia; destruct j as [|j]; cbn [set_nth nth Nat.eqb]; try reflexivity.
  apply IH. lia.
Qed.
Lemma set_null_bit m i o j : ((i + o) / 8 < length m)%nat ->
  bit_of (set_null m i o) j = (bit_of m j || (j =? i + o)%nat)%bool.
Proof.
  intros L. unfold bit_of, set_null. rewrite nth_set_nth by exact L.
  pose proof (Nat.mod_upper_bound j 8 ltac:(lia)) as Mj. pose proof (Nat.mod_upper_bound (i + o) 8 ltac:(lia)) as Mi.
  pose proof (Nat.div_mod j 8 ltac:(lia)) as Dj. pose proof (Nat.div_mod (i + o) 8 ltac:(lia)) as Di.
  destruct (Nat.eqb_spec (j / 8) ((i + o) / 8)) as [E|N].
  - rewrite Z.lor_spec, Z.shiftl_spec by lia. f_equal.
    destruct (Nat.eqb_spec j (i + o)) as [->|N2].
    + rewrite Z.sub_diag. reflexivity.
    + destruct (Z.ltb_spec (Z.of_nat (j mod 8) - Z.of_nat ((i + o) mod 8)) 0) as [Ng|Ng].
      * apply Z.testbit_neg_r; lia.
      * apply (Z.bits_above_log2 1); [lia|change (Z.log2 1) with 0; lia].
  - destruct (Nat.eqb_spec j (i + o)) as [->|N2]; [congruence|]. rewrite orb_false_r. reflexivity.
Qed.
Lemma set_null_length m i o : length (set_null m i o) = length m.
Proof. apply set_nth_length. Qed.

Lemma columns_map cols : forall m i m' vs, ((i + length cols + 9) / 8 <= length m)%nat -> binary_columns m i cols = Some (m', vs) ->
  length m' = length m /\
  (forall j, (j < i + 2)%nat -> bit_of m' j = bit_of m j) /\
  (forall k, (k < length cols)%nat -> bit_of m' (i + k + 2) = bit_of m (i + k + 2) || is_knull (snd (nth k cols (T_NULL, KNull)))).
Proof.
  induction cols as [|[t c] cols IH]; intros m i m' vs L H; cbn [binary_columns length] in *.
  { injection H as <- _. split; [reflexivity|]. split; [reflexivity|]. intros k Hk. lia. }
  destruct (is_knull c) eqn:Ec.
  - assert (Lb : ((i + 2) / 8 < length m)%nat).
    { assert (S ((i + 2) / 8) <= (i + S (length cols) + 9) / 8)%nat; [|lia].
      replace (i + S (length cols) + 9)%nat with ((i + 2 + length cols) + 1 * 8)%nat by lia. rewrite Nat.div_add by lia.
      assert ((i + 2) / 8 <= (i + 2 + length cols) / 8)%nat by (apply Nat.div_le_mono; lia). lia. }
    destruct (IH (set_null m i 2) (S i) m' vs) as (H1&H2&H3); [rewrite set_null_length; replace (S i + length cols + 9)%nat with (i + S (length cols) + 9)%nat by lia; exact L|exact H|].
    split; [rewrite H1; apply set_null_length|]. split.
    + intros j Hj. rewrite H2 by lia. rewrite set_null_bit by exact Lb. destruct (Nat.eqb_spec j (i + 2)); [lia|]. apply orb_false_r.
    + intros [|k] Hk.
      * cbn [nth snd]. rewrite Ec, orb_true_r. rewrite H2 by lia. rewrite set_null_bit by exact Lb.
        destruct (Nat.eqb_spec (i + 0 + 2) (i + 2)); [|lia]. apply orb_true_r.
      * cbn [nth]. replace (i + S k + 2)%nat with (S i + k + 2)%nat by lia. rewrite H3 by lia. rewrite set_null_bit by exact Lb.
        destruct (Nat.eqb_spec (S i + k + 2) (i + 2)); [lia|]. rewrite orb_false_r. reflexivity.
  - destruct (binary_value t c) as [v|]; [|discriminate]. destruct (binary_columns m (S i) cols) as [[m2 vs2]|] eqn:E; [|discriminate].
    injection H as <- <-. destruct (IH m (S i) m2 vs2) as (H1&H2&H3); [replace (S i + length cols + 9)%nat with (i + S (length cols) + 9)%nat by lia; exact L|exact E|].
    split; [exact H1|]. split; [intros j Hj; apply H2; lia|]. intros [|k] Hk.
    + cbn [nth snd]. rewrite Ec, orb_false_r. apply H2. lia.
    + cbn [nth]. replace (i + S k + 2)%nat with (S i + k + 2)%nat by lia. apply H3. lia.
Qed.

(* ---- values ---- *)
Lemma some_inj {A} (x y : A) : Some x = Some y -> x = y.
Proof. congruence. Qed.
Lemma le2_val y : 0 <= y < 65536 -> le_val (le_bytes 2 y) = y.
Proof. intros H. rewrite le_val_le_bytes. apply Z.mod_small. exact H. Qed.
Lemma le4_val y : 0 <= y < 2 ^ 32 -> le_val (le_bytes 4 y) = y.
Proof. intros H. rewrite le_val_le_bytes. apply Z.mod_small. exact H. Qed.
Lemma land255_id x : 0 <= x < 256 -> Z.land x 255 = x.
Proof. intros H. rewrite land_255. apply Z.mod_small. exact H. Qed.

Lemma read_date_bytes f t : 0 <= f_year f < 65536 -> 0 <= f_month f < 256 -> 0 <= f_day f < 256 -> 0 <= f_hour f < 256 ->
  0 <= f_minute f < 256 -> 0 <= f_second f < 256 -> 0 <= f_micro f < 2 ^ 32 ->
  read_date (datetime_bytes f ++ t) = Some (BDate (f_year f) (f_month f) (f_day f) (f_hour f) (f_minute f) (f_second f) (f_micro f), t).
Proof.
  destruct f as [y mo d h mi s us]. cbn [f_year f_month f_day f_hour f_minute f_second f_micro]. intros Hy Hmo Hd Hh Hmi Hs Hus.
  unfold datetime_bytes, datetype_length. cbn [f_year f_month f_day f_hour f_minute f_second f_micro].
  rewrite !land255_id by lia.
  destruct ((y =? 0) && (mo =? 0) && (d =? 0) && (h =? 0) && (mi =? 0) && (s =? 0) && (us =? 0)) eqn:E0.
  { repeat rewrite andb_true_iff in E0. rewrite !Z.eqb_eq in E0. destruct E0 as ((((((->&->)&->)&->)&->)&->)&->). cbn. unfold read_date, take. cbn. reflexivity. }
  destruct ((h =? 0) && (mi =? 0) && (s =? 0) && (us =? 0)) eqn:E1.
  { repeat rewrite andb_true_iff in E1. rewrite !Z.eqb_eq in E1. destruct E1 as (((->&->)&->)&->).
    change ((4 =? 11) || (4 =? 7) || (4 =? 4)) with true. change ((4 =? 11) || (4 =? 7)) with false. cbv iota. rewrite app_nil_r.
    cbn [app read_date]. change (byte_at 0 y :: byte_at 1 y :: mo :: d :: t) with ([byte_at 0 y; byte_at 1 y; mo; d] ++ t).
    rewrite take_app by reflexivity. cbv iota. cbn [Z.eqb Pos.eqb nth firstn]. rewrite bytes2, le2_val by lia. reflexivity. }
  destruct (Z.eqb_spec us 0) as [->|Nus].
  - change ((7 =? 11) || (7 =? 7) || (7 =? 4)) with true. change ((7 =? 11) || (7 =? 7)) with true. change (7 =? 11) with false. cbv iota. rewrite app_nil_r.
    cbn [app read_date].
    change (byte_at 0 y :: byte_at 1 y :: mo :: d :: h :: mi :: s :: t) with ([byte_at 0 y; byte_at 1 y; mo; d; h; mi; s] ++ t).
    rewrite take_app by reflexivity. cbv iota. cbn [Z.eqb Pos.eqb nth firstn]. rewrite bytes2, le2_val by lia. reflexivity.
  - change ((11 =? 11) || (11 =? 7) || (11 =? 4)) with true. change ((11 =? 11) || (11 =? 7)) with true. change (11 =? 11) with true. cbv iota.
    cbn [app read_date].
    change (byte_at 0 y :: byte_at 1 y :: mo :: d :: h :: mi :: s :: byte_at 0 us :: byte_at 1 us :: byte_at 2 us :: byte_at 3 us :: t)
      with ([byte_at 0 y; byte_at 1 y; mo; d; h; mi; s; byte_at 0 us; byte_at 1 us; byte_at 2 us; byte_at 3 us] ++ t).
    rewrite take_app by reflexivity. cbv iota. cbn [Z.eqb Pos.eqb nth firstn skipn]. rewrite bytes2, bytes4, le2_val, le4_val by lia. reflexivity.
Qed.

Lemma datetime_struct_pack f : fields_ok f -> datetime_struct (pack f) = mk_dtf (f_year f) (f_month f) (f_day f) (f_hour f) (f_minute f) (f_second f) 0.
Proof.
  intros F. pose proof (unpack_pack f (ok_fit f F)) as U. unfold datetime_struct.
  assert (Hq : 0 <= Z.land (Z.shiftr (pack f) 46) 0x1FFFF).
  { rewrite Z.land_nonneg. right. lia. }
  rewrite <- Z.quot_div_nonneg, <- Z.rem_mod_nonneg by lia. rewrite <- U at 7 8 9 10 11 12. reflexivity.
Qed.

Lemma time_struct_pack neg d h mi s : 0 <= d -> 0 <= h < 24 -> d * 24 + h < 1024 -> 0 <= mi < 60 -> 0 <= s < 60 ->
  (neg = true -> 0 < d + h + mi + s) -> time_to_time_struct (pack_time (d * 24 + h) mi s neg) = (neg, d, h, mi, s).
Proof.
  intros Hd Hh Hdh Hmi Hs Hn.
  assert (T : time_ok (d * 24 + h) mi s) by (unfold time_ok; lia).
  pose proof (unpack_time_num (d * 24 + h) mi s neg T) as U. unfold unpack_time in U. unfold time_to_time_struct.
  set (p := pack_time (d * 24 + h) mi s neg) in *.
  assert (Sg : neg && (0 <? d * 24 + h + mi + s) = neg).
  { destruct neg; [|reflexivity]. cbn [andb]. apply Z.ltb_lt. specialize (Hn eq_refl). lia. }
  rewrite Sg in U. destruct (p <? 0); injection U as U1 U2 U3 U4; rewrite U1, U2, U3, <- U4; repeat f_equal.
  1,3: symmetry; apply Z.div_unique with h; lia. 1,2: symmetry; apply Z.mod_unique with d; lia.
Qed.

Lemma read_value_ok t c v bs r : shows t c v -> sent_in_full v -> is_knull c = false -> binary_value t c = Some bs ->
  Z.of_nat (length bs) < 2 ^ 64 -> read_value t (bs ++ r) = Some (v, r).
Proof.
  intros Sh Fu Nn H L. destruct Sh as [t|t s Ht|t w v Hw Hv|f F|y m d Hy Hm Hd|n y m d h mi s Dn Tod Hy|neg d h mi s v Hd Hh Hdh Hmi Hs Hng Ev].
  - discriminate.
  - cbn [binary_value] in H.
    assert (E : bs = str_bytes s).
    { injection H as <-. destruct s as [|x s]; [reflexivity|]. unfold str_bytes. rewrite length_coded_lenenc by lia. reflexivity. }
    rewrite E in *. unfold str_bytes in *. rewrite <- app_assoc.
    assert (lenenc_str (lenenc (Z.of_nat (length s)) ++ s ++ r) = Some (Some s, r)) as E2.
    { apply lenenc_str_app. rewrite app_length in L. lia. }
    destruct Ht as [->|[->| ->]]; cbn [read_value]; rewrite E2; reflexivity.
  - assert (bs = le_bytes w v) as ->.
    { destruct t; try discriminate Hw; apply some_inj in Hw; subst w; cbn [binary_value] in H; apply some_inj in H; rewrite <- H; unfold mem_bytes; apply shift_bytes_le. }
    assert (E : fixed_int w (le_bytes w v ++ r) = Some (v, r)) by (rewrite fixed_int_app, Z.mod_small by exact Hv; reflexivity).
    destruct t; try discriminate Hw; cbn [read_value]; rewrite Hw, E; reflexivity.
  - cbn [binary_value] in H. apply some_inj in H. subst bs. rewrite datetime_struct_pack by exact F. cbn [sent_in_full] in Fu. cbn [read_value].
    unfold fields_ok, valid_fields, valid_tod in F. rewrite Fu. rewrite read_date_bytes; cbn [f_year f_month f_day f_hour f_minute f_second f_micro]; try lia. reflexivity.
  - cbn [binary_value] in H. apply some_inj in H. subst bs. cbn [read_value]. set (f := mk_dtf y m d 0 0 0 0) in *.
    assert (F : fields_ok f) by (unfold fields_ok, valid_fields, valid_tod, f; cbn [f_year f_month f_day f_hour f_minute f_second f_micro]; lia).
    assert (E : datetime_to_date (pack f) = (y * 13 + m) * 32 + d).
    { unfold datetime_to_date. rewrite pack_num by (apply ok_fit, F). pose proof (num_fields f (ok_fit f F)) as (_&E41&_).
      change 0x3FFFFF with (2 ^ 22 - 1). rewrite field by lia. rewrite E41. unfold f. cbn [f_year f_month f_day]. apply Z.mod_small. lia. }
    unfold date_value_bytes. rewrite E. unfold u32. rewrite Z.mod_small by lia.
    change 0x1FFFF with (2 ^ 17 - 1). change 0x1F with (2 ^ 5 - 1). rewrite field by lia. rewrite land_ones' by lia.
    change (2 ^ 5) with 32. assert (E1 : ((y * 13 + m) * 32 + d) / 32 = y * 13 + m) by (symmetry; apply Z.div_unique with d; lia).
    rewrite E1. assert (E2 : ((y * 13 + m) * 32 + d) mod 32 = d) by (symmetry; apply Z.mod_unique with (y * 13 + m); lia). rewrite E2.
    rewrite (Z.mod_small (y * 13 + m) (2 ^ 17)) by lia.
    assert (E3 : (y * 13 + m) / 13 = y) by (symmetry; apply Z.div_unique with m; lia).
    assert (E4 : (y * 13 + m) mod 13 = m) by (symmetry; apply Z.mod_unique with y; lia). rewrite E3, E4, land255_id by lia.
    cbn [app read_date]. change (byte_at 0 y :: byte_at 1 y :: m :: d :: r) with ([byte_at 0 y; byte_at 1 y; m; d] ++ r).
    rewrite take_app by reflexivity. cbn [Z.eqb Pos.eqb nth firstn]. rewrite bytes2, le2_val by lia. reflexivity.
  - cbn [binary_value] in H. apply some_inj in H. subst bs. cbn [read_value]. apply day_is_dnum in Dn as [V DN].
    pose proof (localtime_of_fields y m d h mi s TZ V Tod ltac:(lia)) as (D & Eh & M & Sc).
    unfold timestamp_struct, instant. rewrite <- DN. unfold TZ in *. cbv zeta in *.
    set (tt := localtime_fixed_r _ 8) in *. clearbody tt. unfold tm_date in D. injection D as D1 D2 D3.
    rewrite D1, D2, D3, Eh, M, Sc. unfold valid_tod in Tod. unfold valid_date in V.
    assert (0 <= m <= 12 /\ 0 <= d <= 31) as [Vm Vd].
    { cbv beta iota in V. pose proof (month_len_bound y m). lia. }
    rewrite read_date_bytes; cbn [f_year f_month f_day f_hour f_minute f_second f_micro]; try lia. reflexivity.
  - cbn [binary_value] in H. apply some_inj in H. subst bs. cbn [read_value sent_in_full] in *. unfold time_value_bytes. rewrite Ev.
    rewrite time_struct_pack by (auto; lia). unfold timetype_length.
    destruct ((h =? 0) && (mi =? 0) && (s =? 0) && (0 =? 0)) eqn:E0.
    + repeat rewrite andb_true_iff in E0. rewrite !Z.eqb_eq in E0. destruct E0 as (((->&->)&->)&_).
      assert (d = 0) as -> by lia. destruct neg; [specialize (Hng eq_refl); lia|]. reflexivity.
    + change (0 =? 0) with true. cbv iota. change ((8 =? 8) || (8 =? 12)) with true. cbv iota. rewrite !land255_id by lia. cbn [app read_time].
      change ((if neg then 1 else 0) :: byte_at 0 d :: byte_at 1 d :: byte_at 2 d :: byte_at 3 d :: h :: mi :: s :: r)
        with ([(if neg then 1 else 0); byte_at 0 d; byte_at 1 d; byte_at 2 d; byte_at 3 d; h; mi; s] ++ r).
      rewrite take_app by reflexivity. cbn [Z.eqb Pos.eqb nth firstn skipn]. rewrite bytes4, le4_val by lia. destruct neg; reflexivity.
Qed.

Lemma forall2_cons {A B} (R : A -> B -> Prop) x y l l' : Forall2 R (x :: l) (y :: l') -> R x y /\ Forall2 R l l'.
Proof. intros F; inversion F; auto. Qed.
Lemma columns_read cols : forall m0 i m vs ts bvs map r, binary_columns m0 i cols = Some (m, vs) ->
  Forall2 (fun c tv => fst c = fst tv /\ shows (fst c) (snd c) (snd tv) /\ sent_in_full (snd tv)) cols (combine ts bvs) ->
  length ts = length bvs -> Z.of_nat (length vs) < 2 ^ 64 ->
  (forall k, (k < length cols)%nat -> bit_of map (i + k + 2) = is_knull (snd (nth k cols (T_NULL, KNull)))) ->
  read_columns map (i + 2) ts (vs ++ r) = Some (bvs, r).
Proof.
  induction cols as [|[t c] cols IH]; intros m0 i m vs ts bvs map r H F L Lv B.
  { inversion F as [E|]. destruct ts as [|t ts], bvs as [|v bvs]; try discriminate. cbn [binary_columns] in H. injection H as _ <-. reflexivity. }
  destruct ts as [|t' ts], bvs as [|v bvs]; try discriminate; [inversion F|]. cbn [combine] in F. apply forall2_cons in F as [(Et&Sh&Fu) F].
  cbn [fst snd] in *. subst t'. cbn [binary_columns length] in *. injection L as L.
  pose proof (B 0%nat ltac:(lia)) as B0. cbn [nth snd] in B0. replace (i + 0 + 2)%nat with (i + 2)%nat in B0 by lia.
  assert (B' : forall k, (k < length cols)%nat -> bit_of map (S i + k + 2) = is_knull (snd (nth k cols (T_NULL, KNull)))).
  { intros k Hk. specialize (B (S k) ltac:(lia)). cbn [nth] in B. replace (S i + k + 2)%nat with (i + S k + 2)%nat by lia. exact B. }
  cbn [read_columns]. rewrite B0. destruct (is_knull c) eqn:Ec.
  - assert (v = BNull) as -> by (inversion Sh; subst; try discriminate Ec; reflexivity).
    specialize (IH _ (S i) m vs ts bvs map r H F L Lv B'). cbn [Nat.add] in IH. replace (S (i + 2))%nat with (S (i + 2)) by lia. rewrite IH. reflexivity.
  - destruct (binary_value t c) as [bs|] eqn:Eb; [|discriminate]. destruct (binary_columns m0 (S i) cols) as [[m2 vs2]|] eqn:E2; [|discriminate].
    injection H as <- <-. rewrite app_length in Lv. rewrite <- app_assoc.
    rewrite (read_value_ok t c v bs (vs2 ++ r) Sh Fu Ec Eb ltac:(lia)).
    change (S (i + 2)) with (S i + 2)%nat. rewrite (IH m0 (S i) m2 vs2 ts bvs map r E2 F L ltac:(lia) B'). reflexivity.
Qed.

Lemma repeat_bits n j : bit_of (repeat 0 n) j = false.
Proof.
  unfold bit_of. assert (nth (j / 8) (repeat 0 n) 0 = 0) as -> by (generalize (j / 8)%nat; induction n as [|n IH]; intros [|k]; cbn [repeat nth]; auto).
  apply Z.testbit_0_l.
Qed.

Lemma binary_row_packets b pid cols b' pid' vals :
  Forall2 (fun c v => shows (fst c) (snd c) v /\ sent_in_full v) cols vals -> pack_binary_row b pid cols = Some (b', pid') ->
  exists frames body, b' = b ++ frames /\ (forall t, read_message (pid + 1) (frames ++ t) = Some (body, pid', t)) /\
    binary_row (map fst cols) body = Some (vals, []).
Proof.
  intros F H. unfold pack_binary_row in H. rewrite land_255 in H.
  destruct (binary_columns _ 0 cols) as [[nm vs]|] eqn:E; [|discriminate].
  destruct (append b _) as [b2|] eqn:Ea; [|discriminate]. apply append_ok in Ea as [-> La].
  set (body := [0] ++ nm ++ vs) in *.
  replace (length (b ++ [1; 0; 0; (pid + 1) mod 256]%Z ++ body) - length b - 4)%nat with (length body) in H
    by (rewrite !app_length; cbn [length]; lia).
  apply cut_ok in H as [H1 H2]. cbn [fst snd] in *.
  exists (send (S (length (b ++ [1; 0; 0; (pid + 1) mod 256] ++ body))) (pid + 1) body), body.
  split; [exact H1|]. split; [intros t; eapply message_read; apply H2|].
  assert (Lm : ((0 + length cols + 9) / 8 <= length (repeat 0%Z ((length cols + 7 + 2) / 8)))%nat).
  { rewrite repeat_length. cbn [Nat.add]. replace (length cols + 9)%nat with (length cols + 7 + 2)%nat by lia. lia. }
  pose proof (columns_map cols _ 0%nat nm vs Lm E) as (Ln&_&Bt).
  rewrite repeat_length in Ln.
  unfold binary_row, body. cbn [app]. rewrite map_length. rewrite take_app by (rewrite Ln; f_equal; lia).
  assert (Lf : length cols = length vals) by (clear -F; induction F; cbn [length]; auto).
  rewrite <- (app_nil_r vs). eapply (columns_read cols _ 0%nat nm vs (map fst cols) vals nm []); [exact E| | | |].
  - clear -F Lf. induction F as [|[t c] v cols vals P F IH]; cbn [map combine]; constructor; [cbn [fst snd] in *; tauto|]. apply IH. cbn [length] in Lf. lia.
  - rewrite map_length. exact Lf.
  - unfold body in La. rewrite !app_length in La. unfold MAX_ALLOC_BUF_SIZE in La. change (2 ^ 31) with 2147483648 in La. lia.
  - intros k Hk. cbn [Nat.add] in *. rewrite Bt by exact Hk. rewrite repeat_bits. reflexivity.
Qed.
