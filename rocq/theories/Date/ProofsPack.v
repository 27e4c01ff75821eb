From Verif.Date Require Import Model Spec Reading Tables ProofsCal ProofsTime.
Local Open Scope Z_scope.

Lemma lor_add a b k : 0 <= k -> 0 <= b < 2 ^ k -> Z.lor (a * 2 ^ k) b = a * 2 ^ k + b.
Proof.
  intros Hk Hb.
  assert (E : Z.land (a * 2 ^ k) b = 0).
  { apply Z.bits_inj'. intros n Hn. rewrite Z.land_spec, Z.bits_0.
    destruct (Z.lt_ge_cases n k).
    - rewrite <- Z.shiftl_mul_pow2 by lia. rewrite Z.shiftl_spec_low by lia. reflexivity.
    - assert (B : Z.testbit b n = false).
      { destruct (Z.eq_dec b 0) as [->|]; [apply Z.bits_0|]. apply Z.bits_above_log2; [lia|].
        apply Z.lt_le_trans with k; [apply Z.log2_lt_pow2; lia|lia]. }
      rewrite B.
      apply andb_false_r. }
  rewrite <- Z.lxor_lor, <- Z.add_nocarry_lxor by exact E. reflexivity.
Qed.
Lemma u64_id x : 0 <= x < 2 ^ 64 -> u64 x = x.
Proof. intros. apply Z.mod_small; lia. Qed.
Lemma land_ones' x w : 0 <= w -> Z.land x (2 ^ w - 1) = x mod 2 ^ w.
Proof. intros. rewrite <- Z.land_ones by auto. rewrite Z.ones_equiv. f_equal. Qed.
Lemma field x k w : 0 <= k -> 0 <= w -> Z.land (Z.shiftr x k) (2 ^ w - 1) = x / 2 ^ k mod 2 ^ w.
Proof. intros. rewrite land_ones', Z.shiftr_div_pow2 by auto. reflexivity. Qed.

(* Slightly wider: everything the bit fields can hold *)
Definition fields_fit (f : dtf) : Prop :=
  0 <= f_year f <= 10081 /\ 0 <= f_month f <= 12 /\ 0 <= f_day f < 32 /\ 0 <= f_hour f < 32 /\
  0 <= f_minute f < 64 /\ 0 <= f_second f < 64 /\ 0 <= f_micro f < 2 ^ 24.
Lemma ok_fit f : fields_ok f -> fields_fit f.
Proof. unfold fields_ok, valid_fields, valid_tod, fields_fit. lia. Qed.

Definition num (f : dtf) : Z :=
  (f_year f * 13 + f_month f) * 2 ^ 46 + f_day f * 2 ^ 41 + f_hour f * 2 ^ 36 + f_minute f * 2 ^ 30
  + f_second f * 2 ^ 24 + f_micro f.
Lemma pack_num f : fields_fit f -> pack f = num f.
Proof.
  intros (Hy & Hmo & Hd & Hh & Hmi & Hs & Hu). unfold pack, num.
  rewrite !Z.shiftl_mul_pow2 by lia.
  rewrite (u64_id (f_year f * 13)) by lia. rewrite (u64_id (f_year f * 13 + f_month f)) by lia.
  rewrite !u64_id by lia. rewrite Z.lor_0_l.
  rewrite (lor_add _ (f_day f * 2 ^ 41)) by lia.
  replace ((f_year f * 13 + f_month f) * 2 ^ 46 + f_day f * 2 ^ 41)
    with (((f_year f * 13 + f_month f) * 2 ^ 5 + f_day f) * 2 ^ 41) by lia.
  rewrite (lor_add _ (f_hour f * 2 ^ 36)) by lia.
  replace (((f_year f * 13 + f_month f) * 2 ^ 5 + f_day f) * 2 ^ 41 + f_hour f * 2 ^ 36)
    with ((((f_year f * 13 + f_month f) * 2 ^ 5 + f_day f) * 2 ^ 5 + f_hour f) * 2 ^ 36) by lia.
  rewrite (lor_add _ (f_minute f * 2 ^ 30)) by lia.
  replace ((((f_year f * 13 + f_month f) * 2 ^ 5 + f_day f) * 2 ^ 5 + f_hour f) * 2 ^ 36 + f_minute f * 2 ^ 30)
    with (((((f_year f * 13 + f_month f) * 2 ^ 5 + f_day f) * 2 ^ 5 + f_hour f) * 2 ^ 6 + f_minute f) * 2 ^ 30) by lia.
  rewrite (lor_add _ (f_second f * 2 ^ 24)) by lia.
  replace (((((f_year f * 13 + f_month f) * 2 ^ 5 + f_day f) * 2 ^ 5 + f_hour f) * 2 ^ 6 + f_minute f) * 2 ^ 30 + f_second f * 2 ^ 24)
    with ((((((f_year f * 13 + f_month f) * 2 ^ 5 + f_day f) * 2 ^ 5 + f_hour f) * 2 ^ 6 + f_minute f) * 2 ^ 6 + f_second f) * 2 ^ 24) by lia.
  rewrite (lor_add _ (f_micro f)) by lia. lia.
Qed.
Lemma num_range f : fields_fit f -> 0 <= num f < 2 ^ 63.
Proof. unfold fields_fit, num. lia. Qed.

Lemma num_fields f : fields_fit f ->
  num f / 2 ^ 46 = f_year f * 13 + f_month f /\
  num f / 2 ^ 41 = (f_year f * 13 + f_month f) * 32 + f_day f /\
  num f / 2 ^ 36 mod 2 ^ 5 = f_hour f /\ num f / 2 ^ 30 mod 2 ^ 6 = f_minute f /\
  num f / 2 ^ 24 mod 2 ^ 6 = f_second f /\ num f mod 2 ^ 24 = f_micro f.
Proof.
  intros (Hy & Hmo & Hd & Hh & Hmi & Hs & Hu). unfold num.
  destruct f as [y mo d h mi s u]; cbn [f_year f_month f_day f_hour f_minute f_second f_micro] in *.
  set (ym := y * 13 + mo) in *.
  split. { symmetry. apply Z.div_unique with (d * 2 ^ 41 + h * 2 ^ 36 + mi * 2 ^ 30 + s * 2 ^ 24 + u); lia. }
  split. { symmetry. apply Z.div_unique with (h * 2 ^ 36 + mi * 2 ^ 30 + s * 2 ^ 24 + u); lia. }
  assert (E36 : (ym * 2 ^ 46 + d * 2 ^ 41 + h * 2 ^ 36 + mi * 2 ^ 30 + s * 2 ^ 24 + u) / 2 ^ 36 = (ym * 32 + d) * 32 + h).
  { symmetry. apply Z.div_unique with (mi * 2 ^ 30 + s * 2 ^ 24 + u); lia. }
  assert (E30 : (ym * 2 ^ 46 + d * 2 ^ 41 + h * 2 ^ 36 + mi * 2 ^ 30 + s * 2 ^ 24 + u) / 2 ^ 30 = ((ym * 32 + d) * 32 + h) * 64 + mi).
  { symmetry. apply Z.div_unique with (s * 2 ^ 24 + u); lia. }
  assert (E24 : (ym * 2 ^ 46 + d * 2 ^ 41 + h * 2 ^ 36 + mi * 2 ^ 30 + s * 2 ^ 24 + u) / 2 ^ 24 = (((ym * 32 + d) * 32 + h) * 64 + mi) * 64 + s).
  { symmetry. apply Z.div_unique with u; lia. }
  rewrite E36, E30, E24. change (2 ^ 5) with 32. change (2 ^ 6) with 64.
  split. { symmetry; apply Z.mod_unique with (ym * 32 + d); lia. }
  split. { symmetry; apply Z.mod_unique with ((ym * 32 + d) * 32 + h); lia. }
  split. { symmetry; apply Z.mod_unique with (((ym * 32 + d) * 32 + h) * 64 + mi); lia. }
  symmetry. apply Z.mod_unique with ((((ym * 32 + d) * 32 + h) * 64 + mi) * 64 + s); lia.
Qed.

Theorem unpack_pack f : fields_fit f -> unpack (pack f) = f.
Proof.
  intros F. rewrite pack_num by auto. pose proof (num_fields f F) as (E46 & E41 & Eh & Emi & Es & Eu).
  unfold unpack. change 0x1FFFF with (2 ^ 17 - 1). change 0x1F with (2 ^ 5 - 1). change 0x3F with (2 ^ 6 - 1).
  change 0xFFFFFF with (2 ^ 24 - 1). rewrite !field by lia. rewrite land_ones' by lia.
  rewrite E46, E41, Eh, Emi, Es, Eu.
  destruct F as (Hy & Hmo & Hd & Hh & Hmi & Hs & Hu).
  rewrite (Z.mod_small (f_year f * 13 + f_month f)) by lia.
  rewrite Z.quot_div_nonneg, Z.rem_mod_nonneg by lia.
  replace ((f_year f * 13 + f_month f) / 13) with (f_year f) by (apply Z.div_unique with (f_month f); lia).
  replace ((f_year f * 13 + f_month f) mod 13) with (f_month f) by (apply Z.mod_unique with (f_year f); lia).
  replace (((f_year f * 13 + f_month f) * 32 + f_day f) mod 2 ^ 5) with (f_day f)
    by (change (2 ^ 5) with 32; apply Z.mod_unique with (f_year f * 13 + f_month f); lia).
  destruct f; reflexivity.
Qed.


Lemma cmp_step a b a' b' k : 0 <= b < k -> 0 <= b' < k ->
  Z.compare (a * k + b) (a' * k + b') = match Z.compare a a' with Eq => Z.compare b b' | c => c end.
Proof.
  intros Hb Hb'. destruct (Z.compare_spec a a') as [->|L|L].
  - destruct (Z.compare_spec b b'); [apply Z.compare_eq_iff|apply Z.compare_lt_iff|apply Z.compare_gt_iff]; lia.
  - apply Z.compare_lt_iff. nia.
  - apply Z.compare_gt_iff. nia.
Qed.
Theorem pack_order f g : fields_fit f -> fields_fit g -> Z.compare (pack f) (pack g) = lex (flist f) (flist g).
Proof.
  intros F G. rewrite !pack_num by auto. unfold num, flist.
  destruct f as [y mo d h mi s u], g as [y2 mo2 d2 h2 mi2 s2 u2].
  unfold fields_fit in *. cbn [f_year f_month f_day f_hour f_minute f_second f_micro] in *.
  replace ((y * 13 + mo) * 2 ^ 46 + d * 2 ^ 41 + h * 2 ^ 36 + mi * 2 ^ 30 + s * 2 ^ 24 + u)
    with ((((((y * 13 + mo) * 32 + d) * 32 + h) * 64 + mi) * 64 + s) * 2 ^ 24 + u) by lia.
  replace ((y2 * 13 + mo2) * 2 ^ 46 + d2 * 2 ^ 41 + h2 * 2 ^ 36 + mi2 * 2 ^ 30 + s2 * 2 ^ 24 + u2)
    with ((((((y2 * 13 + mo2) * 32 + d2) * 32 + h2) * 64 + mi2) * 64 + s2) * 2 ^ 24 + u2) by lia.
  rewrite !cmp_step by lia. cbn [lex].
  destruct (y ?= y2); auto. destruct (mo ?= mo2); auto. destruct (d ?= d2); auto. destruct (h ?= h2); auto.
  destruct (mi ?= mi2); auto. destruct (s ?= s2); auto. destruct (u ?= u2); auto.
Qed.

(* DATE *)
Theorem date_fields f : fields_fit f ->
  datetime_to_year (pack f) = f_year f /\ datetime_to_month (pack f) = f_month f /\ datetime_to_day (pack f) = f_day f /\
  date_to_datetime (datetime_to_date (pack f)) = pack (mk_dtf (f_year f) (f_month f) (f_day f) 0 0 0 0).
Proof.
  intros F. pose proof (unpack_pack f F) as U.
  assert (Q : 0 <= Z.land (Z.shiftr (pack f) 46) 0x1FFFF).
  { apply Z.land_nonneg; right; lia. }
  assert (U1 : f_year (unpack (pack f)) = f_year f) by (rewrite U; auto).
  assert (U2 : f_month (unpack (pack f)) = f_month f) by (rewrite U; auto).
  assert (U3 : f_day (unpack (pack f)) = f_day f) by (rewrite U; auto).
  unfold unpack in U1, U2, U3; cbn [f_year f_month f_day] in U1, U2, U3.
  rewrite Z.quot_div_nonneg in U1 by lia. rewrite Z.rem_mod_nonneg in U2 by lia.
  split; [auto|]. split; [auto|]. split; [auto|].
  assert (F2 : fields_fit (mk_dtf (f_year f) (f_month f) (f_day f) 0 0 0 0)).
  { unfold fields_fit in *; cbn [f_year f_month f_day f_hour f_minute f_second f_micro]; lia. }
  rewrite (pack_num _ F2), (pack_num f F). unfold datetime_to_date, date_to_datetime.
  change 0x3FFFFF with (2 ^ 22 - 1). rewrite field by lia.
  pose proof (num_fields f F) as (_ & E41 & _). rewrite E41.
  rewrite Z.shiftl_mul_pow2 by lia. unfold fields_fit in F. rewrite (Z.mod_small (_ * 32 + _)) by lia.
  rewrite u64_id by lia. unfold num; cbn [f_year f_month f_day f_hour f_minute f_second f_micro]. lia.
Qed.

(* ---------- DATETIME <-> TIMESTAMP ---------- *)

Lemma dnum_jan1 y m d : 1 <= m <= 12 -> dnum (y, m, d) = dnum (y, 1, 1) + days_before y (Z.to_nat m) + d - 1.
Proof.
  intros Hm.
  assert (Y : forall y m d, dnum (y, m, d) = yd (if m <=? 2 then y - 1 else y)
     + ((153 * (if 2 <? m then m - 3 else m + 9) + 2) / 5 + d - 1) - 719468).
  { intros. cbn [dnum]. unfold dfc, yd. lia. }
  rewrite !Y.
  assert (YN : yd y = yd (y - 1) + 365 + (if leap y then 1 else 0)).
  { replace y with (y - 1 + 1) at 1 by lia. rewrite yd_next. replace (y - 1 + 1) with y by lia. reflexivity. }
  assert (C : m = 1 \/ m = 2 \/ m = 3 \/ m = 4 \/ m = 5 \/ m = 6 \/ m = 7 \/ m = 8 \/ m = 9 \/ m = 10 \/ m = 11 \/ m = 12) by lia.
  assert (DB : forall k, days_before y (Z.to_nat k) = days_before (if leap y then 4 else 1) (Z.to_nat k)).
  { intros k. assert (forall n, month_len y n = month_len (if leap y then 4 else 1) n).
    { intros n. unfold month_len. destruct (leap y); reflexivity. }
    generalize (Z.to_nat k). intros j. induction j as [|[|j] IH]; [auto|auto|]. cbn [days_before] in *. rewrite IH, H. reflexivity. }
  rewrite DB.
  destruct C as [?|[?|[?|[?|[?|[?|[?|[?|[?|[?|[?|?]]]]]]]]]]]; subst m;
  repeat match goal with |- context [?a <=? ?b] => let v := eval vm_compute in (a <=? b) in change (a <=? b) with v
         | |- context [?a <? ?b] => let v := eval vm_compute in (a <? b) in change (a <? b) with v end; cbn iota;
  rewrite ?YN; destruct (leap y);
  repeat match goal with
  | |- context [(153 * ?e + 2) / 5] => let v := eval vm_compute in ((153 * e + 2) / 5) in change ((153 * e + 2) / 5) with v
  | |- context [days_before ?a ?b] => let v := eval vm_compute in (days_before a b) in change (days_before a b) with v end;
  lia.
Qed.
Lemma dnum_year y : dnum (y + 1, 1, 1) = dnum (y, 1, 1) + 365 + (if leap y then 1 else 0).
Proof.
  cbn [dnum]. unfold dfc. change (1 <=? 2) with true. change (2 <? 1) with false. cbn iota.
  replace (y + 1 - 1) with y by lia. pose proof (yd_next (y - 1)) as E. unfold yd in E.
  replace (y - 1 + 1) with y in E by lia. lia.
Qed.
Lemma dnum_year_le y n : 0 <= n -> dnum (y, 1, 1) + 365 * n <= dnum (y + n, 1, 1).
Proof.
  intros Hn. pattern n. apply natlike_ind; auto.
  - replace (y + 0) with y by lia. lia.
  - intros x Hx IH. replace (y + Z.succ x) with (y + x + 1) by lia. rewrite dnum_year. destruct (leap (y + x)); lia.
Qed.
Lemma days_before_S y m : (1 <= m)%nat -> days_before y (S m) = days_before y m + month_len y (Z.of_nat m).
Proof. destruct m; [lia|reflexivity]. Qed.
Lemma days_before_le y m k : (1 <= m)%nat -> days_before y m + 28 * Z.of_nat k <= days_before y (m + k).
Proof.
  intros Hm. induction k as [|k IH]; [rewrite Nat.add_0_r; lia|].
  rewrite Nat.add_succ_r, days_before_S by lia. pose proof (month_len_bound y (Z.of_nat (m + k))). lia.
Qed.
Lemma days_before_year y : days_before y 13 = 365 + (if leap y then 1 else 0).
Proof. cbv -[leap]. destruct (leap y); reflexivity. Qed.
Lemma dnum_lt_dec y m d y2 m2 d2 : valid_date (y, m, d) -> valid_date (y2, m2, d2) ->
  Z.compare (dnum (y, m, d)) (dnum (y2, m2, d2)) = lex [y; m; d] [y2; m2; d2].
Proof.
  assert (K : forall y m d y2 m2 d2, valid_date (y, m, d) -> valid_date (y2, m2, d2) ->
     lex [y; m; d] [y2; m2; d2] = Lt -> dnum (y, m, d) < dnum (y2, m2, d2)).
  { clear. intros y m d y2 m2 d2 [Hm Hd] [Hm2 Hd2] L. cbn [lex] in L.
    rewrite (dnum_jan1 y m), (dnum_jan1 y2 m2) by auto.
    destruct (Z.compare_spec y y2) as [<-|Ly|Ly]; [|clear L|discriminate].
    - destruct (Z.compare_spec m m2) as [<-|Lm|Lm]; [|clear L|discriminate].
      + destruct (Z.compare_spec d d2); try discriminate. lia.
      + pose proof (days_before_S y (Z.to_nat m) ltac:(lia)) as E. rewrite Z2Nat.id in E by lia.
        pose proof (days_before_le y (S (Z.to_nat m)) (Z.to_nat (m2 - m - 1)) ltac:(lia)) as E2.
        replace (S (Z.to_nat m) + Z.to_nat (m2 - m - 1))%nat with (Z.to_nat m2) in E2 by lia. lia.
    - pose proof (days_before_S y (Z.to_nat m) ltac:(lia)) as E. rewrite Z2Nat.id in E by lia.
      pose proof (days_before_le y (S (Z.to_nat m)) (Z.to_nat (12 - m)) ltac:(lia)) as E2.
      replace (S (Z.to_nat m) + Z.to_nat (12 - m))%nat with 13%nat in E2 by lia.
      rewrite days_before_year in E2.
      pose proof (dnum_year y). pose proof (dnum_year_le (y + 1) (y2 - (y + 1)) ltac:(lia)) as E3.
      replace (y + 1 + (y2 - (y + 1))) with y2 in E3 by lia.
      pose proof (days_before_bound y2 (Z.to_nat m2) ltac:(lia)). lia. }
  intros V V2. destruct (lex [y; m; d] [y2; m2; d2]) eqn:L.
  - cbn [lex] in L. destruct (Z.compare_spec y y2); try discriminate. destruct (Z.compare_spec m m2); try discriminate.
    destruct (Z.compare_spec d d2); try discriminate. subst. apply Z.compare_refl.
  - apply Z.compare_lt_iff. apply K; auto.
  - apply Z.compare_gt_iff. apply K; auto. cbn [lex] in *.
    rewrite (Z.compare_antisym y), (Z.compare_antisym m), (Z.compare_antisym d).
    destruct (y ?= y2); cbn; try discriminate; auto. destruct (m ?= m2); cbn; try discriminate; auto.
    destruct (d ?= d2); cbn; try discriminate; auto.
Qed.


Lemma dt_to_ts f n : fields_fit f -> day_is n (f_year f, f_month f, f_day f) ->
  datetime_to_timestamp (pack f) = Z.max 0 (instant n (f_hour f) (f_minute f) (f_second f)).
Proof.
  intros F [V E]%day_is_dnum. unfold datetime_to_timestamp.
  destruct V as [Hm Hd].
  assert (P : pack f <> 0).
  { rewrite pack_num by auto. unfold num, fields_fit in *. lia. }
  destruct (Z.eqb_spec (pack f) 0); [contradiction|]. rewrite unpack_pack by auto.
  destruct (Z.eqb_spec (f_month f) 0); [lia|]. destruct (Z.eqb_spec (f_day f) 0); [lia|].
  rewrite mktime_spec; unfold tm_date; cbn [tm_year tm_mon tm_mday tm_hour tm_min tm_sec];
    replace (f_year f - 1900 + 1900) with (f_year f) by lia; replace (f_month f - 1 + 1) with (f_month f) by lia.
  - rewrite E. unfold instant, TZ. destruct (Z.leb_spec (n * 86400 + f_hour f * 3600 + f_minute f * 60 + f_second f - 8 * 3600) 0); lia.
  - split; auto.
  - unfold fields_fit in F; lia.
Qed.
Lemma ts_to_dt ts : 0 < ts -> ts + 28800 < 253402300800 ->
  exists y m d n, day_is n (y, m, d) /\ 1970 <= y <= 9999 /\ n = (ts + 28800) / 86400 /\
  let t := localtime_fixed_r ts TZ in
  timestamp_to_datetime ts = pack (mk_dtf y m d (tm_hour t) (tm_min t) (tm_sec t) 0) /\
  tm_date t = (y, m, d) /\ valid_tod (tm_hour t) (tm_min t) (tm_sec t) /\
  ts = instant n (tm_hour t) (tm_min t) (tm_sec t).
Proof.
  intros Hp Hu. assert (Hb : Z.abs (ts + TZ * 3600) <= 2 ^ 55) by (unfold TZ; lia).
  pose proof (localtime_spec ts TZ Hb) as (D & H & M & Sc & _ & _ & V & T & Y).
  change (TZ * 3600) with 28800 in *.
  set (n := (ts + 28800) / 86400) in *. set (t := localtime_fixed_r ts TZ) in *.
  exists (tm_year t + 1900), (tm_mon t + 1), (tm_mday t), n.
  assert (DI : day_is n (tm_date t)) by (rewrite D; apply day_is_civ).
  split; [exact DI|]. split.
  - assert (Hn : 0 <= n <= 2932896).
    { subst n. split; [apply Z.div_pos; lia|]. assert ((ts + 28800) / 86400 < 2932897) by (apply Z.div_lt_upper_bound; lia). lia. }
    apply day_is_dnum in DI as [_ DN].
    pose proof (dnum_lt_dec (tm_year t + 1900) (tm_mon t + 1) (tm_mday t) 9999 12 31 V ltac:(cbn; lia)) as C1.
    pose proof (dnum_lt_dec (tm_year t + 1900) (tm_mon t + 1) (tm_mday t) 1970 1 1 V ltac:(cbn; lia)) as C2.
    change (dnum (9999, 12, 31)) with 2932896 in C1. change (dnum (1970, 1, 1)) with 0 in C2.
    fold (tm_date t) in C1, C2. rewrite DN in C1, C2. cbn [lex] in C1, C2.
    destruct (Z.compare_spec (tm_year t + 1900) 9999); destruct (Z.compare_spec (tm_year t + 1900) 1970); try lia.
    all: destruct (Z.compare_spec n 0); try discriminate; destruct (Z.compare_spec n 2932896); try discriminate; lia.
  - split; [reflexivity|]. cbv zeta. split; [|split; [reflexivity|split; [auto|]]].
    + unfold timestamp_to_datetime. destruct (Z.eqb_spec ts 0); [lia|]. reflexivity.
    + unfold instant. rewrite H, M, Sc. pose proof (tod_sum (ts + 28800)) as E. subst n. lia.
Qed.
Theorem ts_round_trip ts : 0 < ts -> ts + 28800 < 253402300800 -> datetime_to_timestamp (timestamp_to_datetime ts) = ts.
Proof.
  intros Hp Hu. destruct (ts_to_dt ts Hp Hu) as (y & m & d & n & DI & Hy & _ & E & _ & T & I).
  rewrite E. apply day_is_dnum in DI as [V DN]. destruct V as [Hm Hd]. pose proof (month_len_bound y m).
  unfold valid_tod in T.
  rewrite (dt_to_ts _ n); cbn [f_year f_month f_day f_hour f_minute f_second f_micro].
  - rewrite <- I. lia.
  - unfold fields_fit; cbn [f_year f_month f_day f_hour f_minute f_second f_micro]; lia.
  - apply day_is_iff; split; [split; auto|auto].
Qed.
Theorem dt_round_trip f n : fields_ok f -> day_is n (f_year f, f_month f, f_day f) ->
  0 < instant n (f_hour f) (f_minute f) (f_second f) ->
  timestamp_to_datetime (datetime_to_timestamp (pack f)) =
    pack (mk_dtf (f_year f) (f_month f) (f_day f) (f_hour f) (f_minute f) (f_second f) 0).
Proof.
  intros F DI I. rewrite (dt_to_ts f n) by (auto using ok_fit). rewrite Z.max_r by lia.
  unfold timestamp_to_datetime. destruct (Z.eqb_spec (instant n (f_hour f) (f_minute f) (f_second f)) 0); [lia|].
  apply day_is_dnum in DI as [V DN]. unfold instant. rewrite <- DN.
  destruct F as (Hy & _ & _ & T & _).
  pose proof (localtime_of_fields (f_year f) (f_month f) (f_day f) (f_hour f) (f_minute f) (f_second f) TZ V T ltac:(lia)) as (D & H & M & Sc).
  unfold TZ in *. cbv zeta in *.
  set (tt := localtime_fixed_r _ 8) in *. clearbody tt. rewrite H, M, Sc. unfold tm_date in D.
  injection D as D1 D2 D3. rewrite D1, D2, D3. reflexivity.
Qed.

Lemma bin_fields f : fields_ok f -> 1 <= f_month f -> f_year f <> 70 ->
  unpack (bin_date_to_datetime f) =
    mk_dtf (if f_year f <? 70 then 2000 + f_year f else if f_year f <? 100 then 1900 + f_year f else f_year f)
      (f_month f) (f_day f) (f_hour f) (f_minute f) (f_second f) (f_micro f).
Proof.
  intros F M Y. pose proof (ok_fit f F) as Ff. unfold bin_date_to_datetime.
  unfold fields_ok, valid_fields, valid_tod in F.
  rewrite (proj2 (Z.eqb_neq (f_month f) 0)) by lia. rewrite (proj2 (Z.ltb_ge 12 (f_month f))) by lia. cbn [orb].
  rewrite (proj2 (Z.ltb_ge 31 (f_day f))) by lia. rewrite (proj2 (Z.ltb_ge 23 (f_hour f))) by lia.
  rewrite (proj2 (Z.ltb_ge 59 (f_minute f))) by lia. rewrite (proj2 (Z.ltb_ge 59 (f_second f))) by lia. cbn [orb].
  rewrite unpack_pack.
  - f_equal. destruct (Z.ltb_spec 70 (f_year f)), (Z.ltb_spec (f_year f) 100), (Z.ltb_spec (f_year f) 70); cbn [andb]; lia.
  - unfold fields_fit in *. cbn [f_year f_month f_day f_hour f_minute f_second f_micro].
    destruct (Z.ltb_spec 70 (f_year f)), (Z.ltb_spec (f_year f) 100), (Z.ltb_spec (f_year f) 70); cbn [andb]; lia.
Qed.
