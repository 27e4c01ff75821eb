From Verif.Date Require Import Model Spec Reading Tables ProofsCal ProofsTime ProofsPack.
Local Open Scope Z_scope.


Lemma pack_time_num h mi s neg : 0 <= h < 2 ^ 19 -> 0 <= mi < 64 -> 0 <= s < 64 ->
  pack_time h mi s neg = (let n := h * 2 ^ 12 + mi * 2 ^ 6 + s in if neg then - n else n).
Proof.
  intros Hh Hm Hs. unfold pack_time. rewrite !Z.shiftl_mul_pow2 by lia.
  rewrite (i32_id (mi * 2 ^ 6)) by lia. rewrite (i32_id (h * 2 ^ 12)) by lia. rewrite Z.lor_0_l.
  rewrite (Z.lor_comm s). rewrite (lor_add mi s 6) by lia. rewrite Z.lor_comm.
  rewrite (lor_add h _ 12) by lia. cbv zeta. destruct neg; [rewrite i32_id by lia|]; lia.
Qed.
Lemma unpack_time_num h mi s neg : time_ok h mi s ->
  unpack_time (pack_time h mi s neg) = (h, mi, s, neg && (0 <? h + mi + s)).
Proof.
  intros (Hh & Hm & Hs). rewrite pack_time_num by lia. cbv zeta. unfold unpack_time.
  set (n := h * 2 ^ 12 + mi * 2 ^ 6 + s).
  assert (F : (Z.land (Z.shiftr n 12) 0x3FF, Z.land (Z.shiftr n 6) 0x3F, Z.land n 0x3F) = (h, mi, s)).
  { change 0x3FF with (2 ^ 10 - 1). change 0x3F with (2 ^ 6 - 1). rewrite !field, land_ones' by lia. unfold n.
    f_equal; [f_equal|].
    - replace ((h * 2 ^ 12 + mi * 2 ^ 6 + s) / 2 ^ 12) with h by (apply Z.div_unique with (mi * 2 ^ 6 + s); lia).
      apply Z.mod_small; lia.
    - replace ((h * 2 ^ 12 + mi * 2 ^ 6 + s) / 2 ^ 6) with (h * 2 ^ 6 + mi) by (apply Z.div_unique with s; lia).
      symmetry. apply Z.mod_unique with h; lia.
    - symmetry. apply Z.mod_unique with (h * 2 ^ 6 + mi); lia. }
  injection F as F1 F2 F3.
  assert (Hn : 0 <= n < 2 ^ 22) by (subst n; lia).
  assert (Z0 : (0 <? h + mi + s) = (0 <? n)) by (subst n; destruct (Z.ltb_spec 0 (h + mi + s)); destruct (Z.ltb_spec 0 (h * 2 ^ 12 + mi * 2 ^ 6 + s)); auto; lia).
  rewrite Z0. destruct neg.
  - destruct (Z.ltb_spec (- n) 0); destruct (Z.ltb_spec 0 n); try lia.
    + rewrite i32_id by lia. rewrite Z.opp_involutive, F1, F2, F3. reflexivity.
    + assert (E : - n = n) by lia. rewrite E, F1, F2, F3. reflexivity.
  - destruct (Z.ltb_spec n 0); [lia|]. rewrite F1, F2, F3. reflexivity.
Qed.

Theorem to_seconds h mi s neg : time_ok h mi s -> time_to_seconds (pack_time h mi s neg) = duration neg h mi s.
Proof.
  intros T. unfold time_to_seconds. rewrite unpack_time_num by auto. destruct T as (Hh & Hm & Hs).
  unfold duration. cbv zeta. rewrite (i32_id (s + mi * 60 + h * 3600)) by lia. destruct neg; cbn [andb].
  - destruct (Z.ltb_spec 0 (h + mi + s)); [rewrite i32_id by lia|]; lia.
  - lia.
Qed.
Theorem of_seconds n : Z.abs n < 1024 * 3600 ->
  exists h mi s, time_ok h mi s /\ seconds_to_time n = pack_time h mi s (n <? 0) /\ n = duration (n <? 0) h mi s.
Proof.
  intros Hn. unfold seconds_to_time.
  assert (K : forall a, 0 <= a < 1024 * 3600 ->
    time_ok (Z.quot a 3600) (Z.rem (Z.quot a 60) 60) (Z.rem a 60) /\ a = Z.quot a 3600 * 3600 + Z.rem (Z.quot a 60) 60 * 60 + Z.rem a 60).
  { intros a Ha. rewrite !Z.quot_div_nonneg by lia.
    assert (0 <= a / 60) by (apply Z.div_pos; lia). rewrite !Z.rem_mod_nonneg by lia.
    replace (a / 3600) with (a / 60 / 60) by (rewrite Z.div_div by lia; reflexivity).
    pose proof (Z.div_mod a 60 ltac:(lia)). pose proof (Z.div_mod (a / 60) 60 ltac:(lia)).
    pose proof (Z.mod_pos_bound a 60 ltac:(lia)). pose proof (Z.mod_pos_bound (a / 60) 60 ltac:(lia)).
    unfold time_ok. split; lia. }
  destruct (Z.ltb_spec n 0).
  - rewrite i32_id by lia. destruct (K (- n) ltac:(lia)) as [T E]. do 3 eexists. split; [exact T|]. split; [reflexivity|].
    unfold duration. lia.
  - destruct (K n ltac:(lia)) as [T E]. do 3 eexists. split; [exact T|]. split; [reflexivity|].
    unfold duration. lia.
Qed.
Theorem seconds_round_trip n : Z.abs n < 1024 * 3600 -> time_to_seconds (seconds_to_time n) = n.
Proof. intros Hn. destruct (of_seconds n Hn) as (h & mi & s & T & -> & E). rewrite to_seconds by auto. auto. Qed.
Theorem time_order h mi s neg h2 mi2 s2 neg2 : time_ok h mi s -> time_ok h2 mi2 s2 ->
  Z.compare (pack_time h mi s neg) (pack_time h2 mi2 s2 neg2) = Z.compare (duration neg h mi s) (duration neg2 h2 mi2 s2).
Proof.
  intros (A1 & A2 & A3) (B1 & B2 & B3). rewrite !pack_time_num by lia. unfold duration. cbv zeta.
  assert (P : Z.compare (h * 2 ^ 12 + mi * 2 ^ 6 + s) (h2 * 2 ^ 12 + mi2 * 2 ^ 6 + s2) = Z.compare (h * 3600 + mi * 60 + s) (h2 * 3600 + mi2 * 60 + s2)).
  { replace (h * 2 ^ 12 + mi * 2 ^ 6 + s) with ((h * 64 + mi) * 64 + s) by lia.
    replace (h2 * 2 ^ 12 + mi2 * 2 ^ 6 + s2) with ((h2 * 64 + mi2) * 64 + s2) by lia.
    replace (h * 3600 + mi * 60 + s) with ((h * 60 + mi) * 60 + s) by lia.
    replace (h2 * 3600 + mi2 * 60 + s2) with ((h2 * 60 + mi2) * 60 + s2) by lia.
    rewrite !cmp_step by lia. reflexivity. }
  destruct neg, neg2; auto.
  - rewrite !Z.compare_opp, (Z.compare_antisym (h * 2 ^ 12 + mi * 2 ^ 6 + s)), (Z.compare_antisym (h * 3600 + mi * 60 + s)), P. reflexivity.
  - destruct (Z.compare_spec (- (h * 3600 + mi * 60 + s)) (h2 * 3600 + mi2 * 60 + s2));
      [apply Z.compare_eq_iff|apply Z.compare_lt_iff|apply Z.compare_gt_iff]; lia.
  - destruct (Z.compare_spec (h * 3600 + mi * 60 + s) (- (h2 * 3600 + mi2 * 60 + s2)));
      [apply Z.compare_eq_iff|apply Z.compare_lt_iff|apply Z.compare_gt_iff]; lia.
Qed.
(* Binary protocol: days and hours *)
Theorem bin_time_round_trip day h mi s neg : 0 <= day -> 0 <= h < 24 -> day * 24 + h < 1024 -> 0 <= mi < 60 -> 0 <= s < 60 ->
  0 < day + h + mi + s -> time_to_time_struct (bin_time_to_datetime day h mi s neg) = (neg, day, h, mi, s) /\
  time_to_seconds (bin_time_to_datetime day h mi s neg) = duration neg (day * 24 + h) mi s.
Proof.
  intros Hd Hh Hdh Hm Hs Hp. unfold bin_time_to_datetime.
  rewrite (i32_id day), (i32_id h), (i32_id mi), (i32_id s), (i32_id (day * 24)), (i32_id (h + day * 24)) by lia.
  destruct (Z.ltb_spec day 0); [lia|]. destruct (Z.ltb_spec h 0); [lia|]. destruct (Z.ltb_spec mi 0); [lia|].
  destruct (Z.ltb_spec 59 mi); [lia|]. destruct (Z.ltb_spec s 0); [lia|]. destruct (Z.ltb_spec 59 s); [lia|]. cbn [orb].
  assert (T : time_ok (h + day * 24) mi s) by (unfold time_ok; lia).
  split.
  - pose proof (unpack_time_num (h + day * 24) mi s neg T) as U. unfold unpack_time in U. unfold time_to_time_struct.
    destruct (pack_time (h + day * 24) mi s neg <? 0); injection U as -> -> -> U; rewrite U;
      (destruct (Z.ltb_spec 0 (h + day * 24 + mi + s)); [|lia]); rewrite andb_true_r;
      replace ((h + day * 24) / 24) with day by (apply Z.div_unique with h; lia);
      replace ((h + day * 24) mod 24) with h by (apply Z.mod_unique with day; lia); reflexivity.
  - rewrite to_seconds by auto. f_equal. lia.
Qed.
(* A TIME used as a DATETIME is that time of the current day (UTC+8) *)
Theorem time_as_datetime clock y m d h mi s : 0 <= clock -> clock + 28800 < 253402300800 ->
  day_is ((clock + 28800) / 86400) (y, m, d) -> valid_tod h mi s -> 86400 <= clock ->
  time_to_datetime clock (pack_time h mi s false) = pack (mk_dtf y m d h mi s 0).
Proof.
  intros Hc Hc2 [V E]%day_is_dnum T H1. unfold time_to_datetime. destruct T as (Hh & Hm & Hs).
  rewrite unpack_time_num by (unfold time_ok; lia). cbn [andb].
  rewrite u32_id, i32_id by (rewrite ?u32_id by lia; lia). rewrite Z.quot_div_nonneg by lia.
  rewrite <- E. unfold timestamp_to_datetime. unfold TZ.
  replace (dnum (y, m, d) * 86400 - 28800 + (h * 3600 + mi * 60 + s)) with (dnum (y, m, d) * 86400 + h * 3600 + mi * 60 + s - 8 * 3600) by lia.
  assert (1 <= (clock + 28800) / 86400 < 2932897).
  { split; [apply Z.div_le_lower_bound; lia|apply Z.div_lt_upper_bound; lia]. }
  destruct (Z.eqb_spec (dnum (y, m, d) * 86400 + h * 3600 + mi * 60 + s - 8 * 3600) 0); [lia|].
  assert (Hy : Z.abs y <= 2 ^ 29).
  { pose proof (dnum_bound y m d V) as B. rewrite E in B. clear - B H. Z.div_mod_to_equations. lia. }
  pose proof (localtime_of_fields y m d h mi s 8 V ltac:(unfold valid_tod; lia) Hy) as (D & HH & M & Sc).
  set (tt := localtime_fixed_r _ 8) in *. clearbody tt. rewrite HH, M, Sc. unfold tm_date in D.
  injection D as D1 D2 D3. rewrite D1, D2, D3. reflexivity.
Qed.
