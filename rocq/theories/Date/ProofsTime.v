From Verif.Date Require Import Model Spec Reading Tables ProofsCal.
Local Open Scope Z_scope.

Lemma civil_eq days : Z.abs days <= 2 ^ 39 -> civil_from_days days = civ days.
Proof.
  intros Hb. unfold civil_from_days, civ. rewrite div_floor_eq by lia.
  set (z := days + 719468).
  replace (z - z / 146097 * 146097) with (z mod 146097) by (rewrite Z.mod_eq by lia; lia).
  assert (R : 0 <= z mod 146097 < 146097) by (apply Z.mod_pos_bound; lia).
  assert (E : z = 146097 * (z / 146097) + z mod 146097) by (apply Z.div_mod; lia).
  set (doe := z mod 146097) in *. set (era := z / 146097) in *.
  assert (Hera : - 2 ^ 22 <= era <= 2 ^ 22) by lia.
  pose proof (era_table doe ltac:(lia)) as T. unfold era_ok in T.
  rewrite (u32_id doe) by lia.
  set (pre := doe - doe / 1460 + doe / 36524 - doe / 146096) in *.
  set (yoe := pre / 365) in *.
  set (doy := doe - (365 * yoe + yoe / 4 - yoe / 100)) in *.
  set (mp := (5 * doy + 2) / 153) in *.
  set (day := doy - (153 * mp + 2) / 5 + 1) in *.
  set (month := if mp <? 10 then mp + 3 else mp - 9) in *.
  repeat (apply andb_true_iff in T as [T ?]).
  repeat match goal with
  | h : (_ <=? _) = true |- _ => apply Z.leb_le in h
  | h : (_ <? _) = true |- _ => apply Z.ltb_lt in h
  | h : (_ =? _) = true |- _ => apply Z.eqb_eq in h end.
  assert (M : 1 <= month <= 12) by (subst month; destruct (Z.ltb_spec mp 10); lia).
  pose proof (month_len_bound (yoe + (if month <=? 2 then 1 else 0)) month).
  assert (0 <= doe / 1460 /\ 0 <= doe / 36524 <= 146097 /\ 0 <= doe / 146096).
  { repeat split; try (apply Z.div_pos; lia). apply Z.div_le_upper_bound; lia. }
  assert (0 <= yoe / 4 <= 400 /\ 0 <= yoe / 100 <= 4).
  { repeat split; try (apply Z.div_pos; lia); apply Z.div_le_upper_bound; lia. }
  rewrite (u32_id pre) by lia. fold yoe.
  rewrite (u32_id (365 * yoe + yoe / 4 - yoe / 100)) by lia. fold doy.
  rewrite (u32_id doy) by lia. rewrite (u32_id (5 * doy + 2)) by lia. fold mp.
  rewrite (u32_id (153 * mp + 2)) by lia. fold day. rewrite (u32_id day) by lia.
  replace (mp + (if mp <? 10 then 3 else -9)) with month by (subst month; destruct (mp <? 10); lia).
  rewrite (u32_id month) by lia. rewrite (i32_id (yoe + era * 400)) by lia.
  rewrite i32_id by lia. destruct (month <=? 2); f_equal; f_equal; lia.
Qed.

Lemma civ_year_bound n : Z.abs n <= 2 ^ 39 -> let '(y, _, _) := civ n in - 2 ^ 31 + 2000 <= y <= 2 ^ 31 - 1 - 2000.
Proof.
  intros Hb. pose proof (dfc_civ n) as E. pose proof (civ_valid n) as V.
  destruct (civ n) as [[y m] d]. destruct V as [Hm Hd]. pose proof (month_len_bound y m).
  unfold dfc in E. set (y' := if m <=? 2 then y - 1 else y) in *.
  assert (0 <= y' mod 400 < 400) by (apply Z.mod_pos_bound; lia).
  assert (y' = 400 * (y' / 400) + y' mod 400) by (apply Z.div_mod; lia).
  assert (0 <= (y' mod 400) / 4 <= 100 /\ 0 <= (y' mod 400) / 100 <= 4).
  { repeat split; try (apply Z.div_pos; lia); apply Z.div_le_upper_bound; lia. }
  assert (0 <= (153 * (if 2 <? m then m - 3 else m + 9) + 2) / 5 <= 400).
  { destruct (Z.ltb_spec 2 m); split; try (apply Z.div_pos; lia); apply Z.div_le_upper_bound; lia. }
  assert (y - 1 <= y' <= y) by (subst y'; destruct (m <=? 2); lia).
  lia.
Qed.


Lemma kMonthDays_spec y m : 1 <= m <= 12 ->
  nth (Z.to_nat (m - 1)) (kMonthDays (leap y)) 0 = days_before y (Z.to_nat m).
Proof.
  intros Hm.
  assert (C : m = 1 \/ m = 2 \/ m = 3 \/ m = 4 \/ m = 5 \/ m = 6 \/ m = 7 \/ m = 8 \/ m = 9 \/ m = 10 \/ m = 11 \/ m = 12) by lia.
  destruct C as [?|[?|[?|[?|[?|[?|[?|[?|[?|[?|[?|?]]]]]]]]]]]; subst m;
    cbv -[leap]; destruct (leap y); reflexivity.
Qed.
Lemma days_before_bound y m : (m <= 12)%nat -> 0 <= days_before y m <= 31 * 11.
Proof.
  intros Hm. do 13 (destruct m as [|m]; [cbv -[leap Z.le]; destruct (leap y); lia|]). lia.
Qed.

Lemma quot_rem_floor t k : 0 < k -> (if Z.rem t k <? 0 then (Z.quot t k - 1, Z.rem t k + k) else (Z.quot t k, Z.rem t k)) = (t / k, t mod k).
Proof.
  intros Hk. pose proof (Z.quot_rem t k ltac:(lia)) as E.
  destruct (Z.ltb_spec (Z.rem t k) 0).
  - destruct (Z.le_gt_cases 0 t); [pose proof (Z.rem_bound_pos t k); lia|].
    pose proof (Z.rem_bound_neg_pos t k). f_equal.
    + apply Z.div_unique with (Z.rem t k + k); lia.
    + apply Z.mod_unique with (Z.quot t k - 1); lia.
  - assert (Z.rem t k < k).
    { destruct (Z.le_gt_cases 0 t); [pose proof (Z.rem_bound_pos t k); lia|].
      pose proof (Z.rem_bound_neg_pos t k); lia. }
    f_equal.
    + apply Z.div_unique with (Z.rem t k); lia.
    + apply Z.mod_unique with (Z.quot t k); lia.
Qed.

Lemma localtime_spec ts tz : Z.abs (ts + tz * 3600) <= 2 ^ 55 ->
  let t := localtime_fixed_r ts tz in
  let s := ts + tz * 3600 in
  tm_date t = civ (s / 86400) /\
  tm_hour t = s mod 86400 / 3600 /\ tm_min t = s mod 3600 / 60 /\ tm_sec t = s mod 60 /\
  tm_wday t = (s / 86400 + 4) mod 7 /\
  tm_yday t = (let '(y, m, d) := civ (s / 86400) in days_before y (Z.to_nat m) + d - 1) /\
  valid_date (tm_date t) /\ valid_tod (tm_hour t) (tm_min t) (tm_sec t) /\
  - 2 ^ 31 + 2000 <= tm_year t + 1900 <= 2 ^ 31 - 1 - 2000.
Proof.
  intros Hb. cbv zeta. set (s := ts + tz * 3600) in *. unfold localtime_fixed_r. fold s.
  rewrite quot_rem_floor by lia. set (n := s / 86400). set (r := s mod 86400).
  assert (R : 0 <= r < 86400) by (apply Z.mod_pos_bound; lia).
  assert (E : s = 86400 * n + r) by (apply Z.div_mod; lia).
  assert (Hn : Z.abs n <= 2 ^ 39) by lia.
  rewrite civil_eq by auto.
  pose proof (civ_valid n) as V. pose proof (civ_year_bound n Hn) as Y.
  destruct (civ n) as [[y m] d] eqn:C. destruct V as [Hm Hd].
  pose proof (month_len_bound y m).
  unfold tm_date. cbn [tm_year tm_mon tm_mday tm_hour tm_min tm_sec tm_yday tm_wday].
  rewrite (u32_id (m - 1)) by lia. rewrite (i32_id (m - 1)) by lia.
  rewrite (i32_id (y - 1900)) by lia. rewrite (i32_id d) by lia.
  rewrite is_leap_eq, kMonthDays_spec by lia.
  pose proof (days_before_bound y (Z.to_nat m) ltac:(lia)).
  rewrite (u32_id (_ + d - 1)) by lia. rewrite (i32_id (_ + d - 1)) by lia.
  rewrite (Z.quot_div_nonneg r 3600) by lia.
  assert (R1 : 0 <= r / 3600 < 24).
  { split; [apply Z.div_pos; lia|apply Z.div_lt_upper_bound; lia]. }
  rewrite (i32_id (r / 3600)) by lia.
  rewrite (Z.rem_mod_nonneg r 3600) by lia.
  assert (R2 : 0 <= r mod 3600 < 3600) by (apply Z.mod_pos_bound; lia).
  rewrite (Z.quot_div_nonneg (r mod 3600) 60) by lia.
  rewrite (Z.rem_mod_nonneg (r mod 3600) 60) by lia.
  assert (R3 : 0 <= r mod 3600 / 60 < 60).
  { split; [apply Z.div_pos; lia|apply Z.div_lt_upper_bound; lia]. }
  assert (R4 : 0 <= (r mod 3600) mod 60 < 60) by (apply Z.mod_pos_bound; lia).
  rewrite (i32_id (r mod 3600 / 60)) by lia. rewrite (i32_id ((r mod 3600) mod 60)) by lia.
  assert (M36 : s mod 3600 = r mod 3600).
  { rewrite E. replace (86400 * n + r) with (r + (24 * n) * 3600) by lia. apply Z.mod_add; lia. }
  assert (M6 : s mod 60 = (r mod 3600) mod 60).
  { rewrite E. replace (86400 * n + r) with (r + (1440 * n) * 60) by lia. rewrite Z.mod_add by lia.
    pose proof (Z.div_mod r 3600 ltac:(lia)) as Er. rewrite Er at 1.
    replace (3600 * (r / 3600) + r mod 3600) with (r mod 3600 + (60 * (r / 3600)) * 60) by lia. apply Z.mod_add; lia. }
  rewrite M36, M6.
  assert (W : i32 (if -4 <=? n then Z.rem (n + 4) 7 else Z.rem (n + 5) 7 + 6) = (n + 4) mod 7).
  { assert (0 <= (n + 4) mod 7 < 7) by (apply Z.mod_pos_bound; lia).
    destruct (Z.leb_spec (-4) n).
    - rewrite Z.rem_mod_nonneg by lia. rewrite i32_id by lia. reflexivity.
    - pose proof (Z.quot_rem (n + 5) 7 ltac:(lia)). pose proof (Z.rem_bound_pos (- (n + 5)) 7 ltac:(lia) ltac:(lia)).
      rewrite Z.rem_opp_l in * by lia.
      rewrite i32_id by lia. apply Z.mod_unique with (Z.quot (n + 5) 7 - 1); lia. }
  rewrite W. replace (y - 1900 + 1900) with y by lia. replace (m - 1 + 1) with m by lia.
  unfold valid_tod. cbn [valid_date]. repeat split; lia.
Qed.

Lemma mktime_spec t tz : valid_date (tm_date t) -> - 2 ^ 31 <= tm_year t + 1900 < 2 ^ 31 ->
  mktime_fixed_r t tz = dnum (tm_date t) * 86400 + tm_hour t * 3600 + tm_min t * 60 + tm_sec t - tz * 3600.
Proof.
  intros [Hm Hd] Hy. pose proof (month_len_bound (tm_year t + 1900) (tm_mon t + 1)).
  unfold mktime_fixed_r. rewrite i32_id by lia. rewrite !u32_id by lia.
  rewrite dfc_eq by lia. reflexivity.
Qed.

Lemma tod_sum s : s = s / 86400 * 86400 + s mod 86400 / 3600 * 3600 + s mod 3600 / 60 * 60 + s mod 60.
Proof.
  assert (E : s = 86400 * (s / 86400) + s mod 86400) by (apply Z.div_mod; lia).
  set (n := s / 86400) in *. set (r := s mod 86400) in *.
  assert (M36 : s mod 3600 = r mod 3600).
  { rewrite E. replace (86400 * n + r) with (r + (24 * n) * 3600) by lia. apply Z.mod_add; lia. }
  assert (M6 : s mod 60 = (s mod 3600) mod 60).
  { pose proof (Z.div_mod s 3600 ltac:(lia)) as Er. rewrite Er at 1.
    replace (3600 * (s / 3600) + s mod 3600) with (s mod 3600 + (60 * (s / 3600)) * 60) by lia. apply Z.mod_add; lia. }
  rewrite M6, M36.
  pose proof (Z.div_mod r 3600 ltac:(lia)). pose proof (Z.div_mod (r mod 3600) 60 ltac:(lia)). lia.
Qed.

Theorem round_trip ts tz : Z.abs (ts + tz * 3600) <= 2 ^ 55 -> mktime_fixed_r (localtime_fixed_r ts tz) tz = ts.
Proof.
  intros Hb. pose proof (localtime_spec ts tz Hb) as (D & H & M & Sc & _ & _ & V & _ & Y).
  rewrite mktime_spec by (auto; lia). rewrite D, H, M, Sc, dnum_civ.
  pose proof (tod_sum (ts + tz * 3600)). lia.
Qed.
Theorem local_date ts tz : Z.abs (ts + tz * 3600) <= 2 ^ 55 ->
  day_is ((ts + tz * 3600) / 86400) (tm_date (localtime_fixed_r ts tz)).
Proof.
  intros Hb. pose proof (localtime_spec ts tz Hb) as (D & _). rewrite D. apply day_is_civ.
Qed.
Theorem mktime_day t tz n : day_is n (tm_date t) -> - 2 ^ 31 <= tm_year t + 1900 < 2 ^ 31 ->
  mktime_fixed_r t tz = n * 86400 + tm_hour t * 3600 + tm_min t * 60 + tm_sec t - tz * 3600.
Proof. intros [V <-]%day_is_dnum Y. apply mktime_spec; auto. Qed.

(* A valid reading is what localtime gives back *)
Lemma dnum_bound y m d : valid_date (y, m, d) -> 365 * y - 719468 - 400 <= dnum (y, m, d) - y / 4 + y / 100 - y / 400 <= 365 * y - 719468 + 800.
Proof.
  intros [Hm Hd]. pose proof (month_len_bound y m). cbn [dnum]. unfold dfc.
  set (y' := if m <=? 2 then y - 1 else y) in *.
  assert (0 <= (153 * (if 2 <? m then m - 3 else m + 9) + 2) / 5 <= 337).
  { destruct (Z.ltb_spec 2 m); split; try (apply Z.div_pos; lia); apply Z.div_le_upper_bound; lia. }
  assert (y - 1 <= y' <= y) by (subst y'; destruct (m <=? 2); lia).
  assert (0 <= y' mod 400 < 400) by (apply Z.mod_pos_bound; lia).
  assert (y' = 400 * (y' / 400) + y' mod 400) by (apply Z.div_mod; lia).
  Z.div_mod_to_equations. lia.
Qed.
Lemma localtime_of_fields y m d h mi s tz : valid_date (y, m, d) -> valid_tod h mi s -> Z.abs y <= 2 ^ 29 ->
  let t := localtime_fixed_r (dnum (y, m, d) * 86400 + h * 3600 + mi * 60 + s - tz * 3600) tz in
  tm_date t = (y, m, d) /\ tm_hour t = h /\ tm_min t = mi /\ tm_sec t = s.
Proof.
  intros V (Hh & Hmi & Hs) Hy. pose proof (dnum_bound y m d V) as B. cbv zeta.
  set (ts := dnum (y, m, d) * 86400 + h * 3600 + mi * 60 + s - tz * 3600).
  assert (E : ts + tz * 3600 = 86400 * dnum (y, m, d) + (h * 3600 + mi * 60 + s)) by (subst ts; lia).
  assert (Hb : Z.abs (ts + tz * 3600) <= 2 ^ 55).
  { rewrite E. clear E ts. Z.div_mod_to_equations. lia. }
  pose proof (localtime_spec ts tz Hb) as (D & H & M & Sc & _).
  rewrite D, H, M, Sc, E. clear D H M Sc E Hb. set (n := dnum (y, m, d)) in *.
  assert (E1 : (86400 * n + (h * 3600 + mi * 60 + s)) / 86400 = n).
  { symmetry; apply Z.div_unique with (h * 3600 + mi * 60 + s); lia. }
  assert (E2 : (86400 * n + (h * 3600 + mi * 60 + s)) mod 86400 = h * 3600 + mi * 60 + s).
  { symmetry; apply Z.mod_unique with n; lia. }
  assert (E3 : (86400 * n + (h * 3600 + mi * 60 + s)) mod 3600 = mi * 60 + s).
  { symmetry; apply Z.mod_unique with (24 * n + h); lia. }
  assert (E4 : (86400 * n + (h * 3600 + mi * 60 + s)) mod 60 = s).
  { symmetry; apply Z.mod_unique with (1440 * n + h * 60 + mi); lia. }
  rewrite E1, E2, E3, E4. split; [apply civ_dnum; auto|].
  split; [symmetry; apply Z.div_unique with (mi * 60 + s); lia|].
  split; [symmetry; apply Z.div_unique with s; lia|reflexivity].
Qed.
