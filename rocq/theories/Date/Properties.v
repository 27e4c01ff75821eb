(* C19-C22: calendar, DATETIME, TIME and interval arithmetic. *)
From Verif.Date Require Import Model TextModel Spec Reading ProofsCal ProofsTime ProofsPack ProofsDur ProofsAdd ProofsText ProofsText2.
Local Open Scope Z_scope.

(* ---------- C19 ---------- *)

(* Timestamp to calendar and back, for every second and every time zone offset.  The bound
   2^55 seconds (a billion years) is where the 32-bit year field still holds the year. *)
Theorem C19_round_trip : forall ts tz, Z.abs (ts + tz * 3600) <= 2 ^ 55 ->
  mktime_fixed_r (localtime_fixed_r ts tz) tz = ts.
Proof. exact round_trip. Qed.
Print Assumptions C19_round_trip.
(* The calendar date is the Gregorian date of that day *)
Theorem C19_gregorian : forall ts tz, Z.abs (ts + tz * 3600) <= 2 ^ 55 ->
  day_is ((ts + tz * 3600) / 86400) (tm_date (localtime_fixed_r ts tz)).
Proof. exact local_date. Qed.
Print Assumptions C19_gregorian.
(* ... the other way round *)
Theorem C19_mktime : forall t tz n, day_is n (tm_date t) -> - 2 ^ 31 <= tm_year t + 1900 < 2 ^ 31 ->
  mktime_fixed_r t tz = n * 86400 + tm_hour t * 3600 + tm_min t * 60 + tm_sec t - tz * 3600.
Proof. exact mktime_day. Qed.
Print Assumptions C19_mktime.
(* and the clock, weekday (0 = Sunday; 1970-01-01 was a Thursday) and day of the year are right. *)
Theorem C19_clock : forall ts tz, Z.abs (ts + tz * 3600) <= 2 ^ 55 ->
  let t := localtime_fixed_r ts tz in let s := ts + tz * 3600 in
  s = s / 86400 * 86400 + tm_hour t * 3600 + tm_min t * 60 + tm_sec t /\
  valid_tod (tm_hour t) (tm_min t) (tm_sec t) /\
  tm_wday t = (s / 86400 + 4) mod 7 /\
  forall y m d, tm_date t = (y, m, d) -> tm_yday t = days_before y (Z.to_nat m) + d - 1.
Proof.
  intros ts tz Hb. pose proof (localtime_spec ts tz Hb) as (D & H & M & Sc & W & Y & _ & T & _). cbv zeta.
  split; [rewrite H, M, Sc; apply tod_sum|]. split; [exact T|]. split; [exact W|].
  intros y m d E. rewrite E in D. rewrite Y, <- D. reflexivity.
Qed.
Print Assumptions C19_clock.
(* The specification's day numbering is a function both ways. *)
Theorem C19_spec_unique : forall n m x y, day_is n x -> day_is m y -> (n = m <-> x = y).
Proof.
  intros n m x y Hx Hy. split.
  - intros <-. eapply day_is_fun; eauto.
  - intros <-. apply day_is_dnum in Hx as [_ Hx], Hy as [_ Hy]. congruence.
Qed.
Print Assumptions C19_spec_unique.
(* A date text is accepted as a partition bound exactly when the day exists. *)
Theorem C19_valid_date : forall y m d, 0 <= y < 10000 -> 0 <= m < 100 -> 0 <= d < 100 ->
  is_valid_date (ymd y m d) false = true <-> valid_date (y, m, d).
Proof. exact valid_date_iff. Qed.
Print Assumptions C19_valid_date.
Example C19_nonvacuous :
  tm_date (localtime_fixed_r 1709164800 8) = (2024, 2, 29) /\ tm_wday (localtime_fixed_r 1709164800 8) = 4 /\
  tm_date (localtime_fixed_r (-1) 0) = (1969, 12, 31) /\ tm_yday (localtime_fixed_r (-1) 0) = 364 /\
  mktime_fixed_r (localtime_fixed_r (-62135596801) 0) 0 = -62135596801 /\
  is_valid_date (ymd 2023 2 29) false = false /\ is_valid_date (ymd 2024 2 29) false = true.
Proof. vm_compute. auto 10. Qed.

(* ---------- C20 ---------- *)

Theorem C20_fields : forall f, fields_ok f -> unpack (pack f) = f.
Proof. intros f H. apply unpack_pack, ok_fit, H. Qed.
Print Assumptions C20_fields.
Theorem C20_order : forall f g, fields_ok f -> fields_ok g -> Z.compare (pack f) (pack g) = lex (flist f) (flist g).
Proof. intros f g F G. apply pack_order; apply ok_fit; auto. Qed.
Print Assumptions C20_order.
(* As unsigned or signed 64-bit numbers alike: the top bit is never set *)
Theorem C20_top_bit : forall f, fields_ok f -> 0 <= pack f < 2 ^ 63.
Proof. intros f H. apply ok_fit in H. rewrite pack_num by auto. apply num_range; auto. Qed.
Print Assumptions C20_top_bit.
(* A DATETIME parameter of the binary protocol keeps its fields; years 0-69 mean 20yy and
   71-99 mean 19yy *)
Theorem C20_binary : forall f, fields_ok f -> 1 <= f_month f -> f_year f <> 70 ->
  unpack (bin_date_to_datetime f) =
    mk_dtf (if f_year f <? 70 then 2000 + f_year f else if f_year f <? 100 then 1900 + f_year f else f_year f)
      (f_month f) (f_day f) (f_hour f) (f_minute f) (f_second f) (f_micro f).
Proof. exact bin_fields. Qed.
Print Assumptions C20_binary.
(* but the year 70 stays 70 where MySQL reads 1970 *)
Theorem C20_binary_70_refuted : f_year (unpack (bin_date_to_datetime (mk_dtf 70 1 1 0 0 0 0))) = 70.
Proof. vm_compute. reflexivity. Qed.
Print Assumptions C20_binary_70_refuted.
(* YEAR, MONTH, DAY and DATE of a DATETIME *)
Theorem C20_date_part : forall f, fields_ok f ->
  datetime_to_year (pack f) = f_year f /\ datetime_to_month (pack f) = f_month f /\ datetime_to_day (pack f) = f_day f /\
  date_to_datetime (datetime_to_date (pack f)) = pack (mk_dtf (f_year f) (f_month f) (f_day f) 0 0 0 0).
Proof. intros f H. apply date_fields, ok_fit, H. Qed.
Print Assumptions C20_date_part.
(* DATETIME -> TIMESTAMP is the instant of that wall clock time at UTC+8 (0 if before 1970) *)
Theorem C20_instant : forall f n, fields_ok f -> day_is n (f_year f, f_month f, f_day f) ->
  datetime_to_timestamp (pack f) = Z.max 0 (instant n (f_hour f) (f_minute f) (f_second f)).
Proof. intros f n H. apply dt_to_ts, ok_fit, H. Qed.
Print Assumptions C20_instant.
Theorem C20_ts_round_trip : forall ts, 0 < ts -> ts + 28800 < 253402300800 ->
  datetime_to_timestamp (timestamp_to_datetime ts) = ts.
Proof. exact ts_round_trip. Qed.
Print Assumptions C20_ts_round_trip.
Theorem C20_dt_round_trip : forall f n, fields_ok f -> day_is n (f_year f, f_month f, f_day f) ->
  0 < instant n (f_hour f) (f_minute f) (f_second f) ->
  timestamp_to_datetime (datetime_to_timestamp (pack f)) =
    pack (mk_dtf (f_year f) (f_month f) (f_day f) (f_hour f) (f_minute f) (f_second f) 0).
Proof. exact dt_round_trip. Qed.
Print Assumptions C20_dt_round_trip.
(* Printing a DATETIME and reading the text back, whatever follows the text in memory: every
   field is kept, the microseconds up to the digits printed. *)
Theorem C20_text : forall f p, fields_ok f ->
  let text := datetime_to_str (pack f) p in
  forall tail, str_to_datetime (text ++ tail) (length text) =
  Some (pack (mk_dtf (f_year f) (f_month f) (f_day f) (f_hour f) (f_minute f) (f_second f)
                (cut (f_micro f) (digits_shown (f_micro f) p))), true).
Proof. exact datetime_text. Qed.
Print Assumptions C20_text.
Theorem C20_text_exact : forall f, fields_ok f ->
  let text := datetime_to_str (pack f) 6 in
  option_map fst (str_to_datetime (text ++ [0]) (length text)) = Some (pack f).
Proof.
  intros f F. cbv zeta. rewrite datetime_text by auto. cbn [option_map fst]. unfold cut, digits_shown. cbn [Z.ltb Z.leb Z.compare andb].
  change (10 ^ (6 - 6)) with 1. rewrite Z.div_1_r, Z.mul_1_r. destruct f; reflexivity.
Qed.
Print Assumptions C20_text_exact.
Theorem C20_date_text : forall y m d tail, 0 <= y <= 9999 -> 0 <= m <= 12 -> 0 <= d <= 31 ->
  let date := datetime_to_date (pack (mk_dtf y m d 0 0 0 0)) in
  let text := date_to_str date in
  exists full, str_to_datetime (text ++ tail) (length text) = Some (date_to_datetime date, full).
Proof. exact date_text. Qed.
Print Assumptions C20_date_text.
(* Whatever text is given, the result is 0 or has all fields in range, unless a minus sign
   starts the text or follows a dot ... *)
Theorem C20_parse_range_partial : forall mem len r full, str_to_datetime mem len = Some (r, full) ->
  (forall p, skip_blanks mem = Some p ->
     starts_minus (firstn (Nat.min len 26) p) = false /\ dot_minus (firstn (Nat.min len 26) p) = false) ->
  in_range r.
Proof. exact parse_range. Qed.
Print Assumptions C20_parse_range_partial.
(* ... in which case it need not be: the text -1-01-01 is stored as year 10081, month 7. *)
Theorem C20_parse_range_refuted : exists text r, str_to_datetime (text ++ [0]) (length text) = Some (r, true) /\
  unpack r = mk_dtf 10081 7 1 0 0 0 0 /\ ~ in_range r.
Proof.
  exists [45; 49; 45; 48; 49; 45; 48; 49]. eexists. split; [vm_compute; reflexivity|].
  split; [vm_compute; reflexivity|]. intros [E|(f & F & E)]; [discriminate|].
  pose proof (C20_fields f F) as U. rewrite <- E in U.
  assert (Y : f_year f = 10081) by (rewrite <- U; vm_compute; reflexivity).
  destruct F as (Hy & _). lia.
Qed.
Print Assumptions C20_parse_range_refuted.
(* Only the [length] bytes of the text are read, if it does not begin with a blank ... *)
Theorem C20_parse_local_partial : forall s tail tail', match s with c :: _ => c <> 32 | [] => False end ->
  str_to_datetime (s ++ tail) (length s) = str_to_datetime (s ++ tail') (length s) /\
  exists r, str_to_datetime (s ++ tail) (length s) = Some r.
Proof. exact parse_local. Qed.
Print Assumptions C20_parse_local_partial.
(* ... but with leading blanks the length is not reduced: bytes after the text are read, which
   changes the result or (two blanks and a terminating NUL) runs past the end. *)
Theorem C20_parse_local_refuted : exists s,
  str_to_datetime (s ++ [48; 0]) (length s) <> str_to_datetime (s ++ [57; 0]) (length s) /\
  str_to_datetime (32 :: s ++ [0]) (length (32 :: s)) = None.
Proof.
  exists [32; 50; 48; 50; 51; 45; 48; 53; 45; 49]. split; vm_compute; [discriminate|reflexivity].
Qed.
Print Assumptions C20_parse_local_refuted.
Definition f1 : dtf := mk_dtf 2024 2 29 23 59 58 123456.
Lemma f1_ok : fields_ok f1.
Proof. unfold fields_ok, valid_fields, valid_tod; cbn [f_year f_month f_day f_hour f_minute f_second f_micro f1]; lia. Qed.
Lemma f1_day : day_is 19782 (2024, 2, 29).
Proof. apply day_is_iff. split; [cbn; lia|reflexivity]. Qed.
Example C20_nonvacuous : fields_ok f1 /\ day_is 19782 (f_year f1, f_month f1, f_day f1) /\
  datetime_to_timestamp (pack f1) = 1709222398 /\
  datetime_to_str (pack f1) 3 = [50;48;50;52;45;48;50;45;50;57;32;50;51;58;53;57;58;53;56;46;49;50;51].
Proof. split; [exact f1_ok|]. split; [exact f1_day|]. split; vm_compute; reflexivity. Qed.

(* ---------- C21 ---------- *)

(* The value of a packed TIME is its duration *)
Theorem C21_seconds : forall h mi s neg, time_ok h mi s -> time_to_seconds (pack_time h mi s neg) = duration neg h mi s.
Proof. exact to_seconds. Qed.
Print Assumptions C21_seconds.
Theorem C21_round_trip : forall n, Z.abs n < 1024 * 3600 -> time_to_seconds (seconds_to_time n) = n.
Proof. exact seconds_round_trip. Qed.
Print Assumptions C21_round_trip.
(* Sign, hours, minutes and seconds are recovered (there is no negative zero) *)
Theorem C21_fields : forall h mi s neg, time_ok h mi s ->
  unpack_time (pack_time h mi s neg) = (h, mi, s, neg && (0 <? h + mi + s)).
Proof. exact unpack_time_num. Qed.
Print Assumptions C21_fields.
Theorem C21_order : forall h mi s neg h2 mi2 s2 neg2, time_ok h mi s -> time_ok h2 mi2 s2 ->
  Z.compare (pack_time h mi s neg) (pack_time h2 mi2 s2 neg2) = Z.compare (duration neg h mi s) (duration neg2 h2 mi2 s2).
Proof. exact time_order. Qed.
Print Assumptions C21_order.
(* Text form and binary protocol form *)
Theorem C21_text : forall h mi s neg, time_ok h mi s ->
  str_to_time (time_to_str (pack_time h mi s neg)) = Some (pack_time h mi s neg).
Proof. exact time_text. Qed.
Print Assumptions C21_text.
Theorem C21_binary : forall day h mi s neg, 0 <= day -> 0 <= h < 24 -> day * 24 + h < 1024 -> 0 <= mi < 60 -> 0 <= s < 60 ->
  0 < day + h + mi + s ->
  time_to_time_struct (bin_time_to_datetime day h mi s neg) = (neg, day, h, mi, s) /\
  time_to_seconds (bin_time_to_datetime day h mi s neg) = duration neg (day * 24 + h) mi s.
Proof. exact bin_time_round_trip. Qed.
Print Assumptions C21_binary.
(* A TIME converted to DATETIME is that time on the current day *)
Theorem C21_as_datetime : forall clock y m d h mi s, 0 <= clock -> clock + 28800 < 253402300800 ->
  day_is ((clock + 28800) / 86400) (y, m, d) -> valid_tod h mi s -> 86400 <= clock ->
  time_to_datetime clock (pack_time h mi s false) = pack (mk_dtf y m d h mi s 0).
Proof. exact time_as_datetime. Qed.
Print Assumptions C21_as_datetime.
(* The range is checked nowhere: SEC_TO_TIME beyond 1023:59:59 silently loses hours, where
   MySQL clamps to 838:59:59. *)
Theorem C21_out_of_range_refuted : exists n, 0 < n < 2 ^ 31 /\ time_to_seconds (seconds_to_time n) <> n /\
  time_to_seconds (seconds_to_time n) = 0.
Proof. exists (1024 * 3600). split; [lia|]. split; vm_compute; [discriminate|reflexivity]. Qed.
Print Assumptions C21_out_of_range_refuted.
Example C21_nonvacuous : time_ok 838 59 59 /\ duration true 838 59 59 = -3020399 /\
  time_to_seconds (pack_time 838 59 59 true) = -3020399 /\ seconds_to_time (-3020399) = pack_time 838 59 59 true /\
  time_to_str (pack_time 838 59 59 true) = [45;56;51;56;58;53;57;58;53;57] /\
  bin_time_to_datetime 34 22 59 59 true = pack_time 838 59 59 true.
Proof. split; [unfold time_ok; lia|]. vm_compute. auto 10. Qed.

(* ---------- C22 ---------- *)

(* Adding n months, for every date and every n (up to 2^27 months), except when the month
   count goes below January of the same year by a whole number of years ... *)
Theorem C22_add_months_partial : forall ts n, Z.abs (ts + 28800) <= 2 ^ 53 -> Z.abs n <= 2 ^ 27 ->
  let t := localtime_fixed_r ts TZ in
  ~ (tm_mon t + n < 0 /\ (tm_mon t + n) mod 12 = 0) ->
  let t' := localtime_fixed_r (date_add_interval ts n MONTH) TZ in
  tm_date t' = add_months (tm_date t) n /\ same_tod t t'.
Proof. exact add_months_ok. Qed.
Print Assumptions C22_add_months_partial.
(* ... in which case the result is always one year too early: *)
Theorem C22_add_months_refuted : forall ts n, Z.abs (ts + 28800) <= 2 ^ 53 -> Z.abs n <= 2 ^ 27 ->
  let t := localtime_fixed_r ts TZ in
  tm_mon t + n < 0 -> (tm_mon t + n) mod 12 = 0 ->
  let t' := localtime_fixed_r (date_add_interval ts n MONTH) TZ in
  tm_date t' = add_months (tm_date t) (n - 12) /\ same_tod t t'.
Proof. exact add_months_wrong. Qed.
Print Assumptions C22_add_months_refuted.
Theorem C22_add_years : forall ts n, Z.abs (ts + 28800) <= 2 ^ 53 -> Z.abs n <= 2 ^ 27 ->
  let t := localtime_fixed_r ts TZ in let t' := localtime_fixed_r (date_add_interval ts n YEAR) TZ in
  tm_date t' = add_months (tm_date t) (12 * n) /\ same_tod t t'.
Proof. exact add_year_result. Qed.
Print Assumptions C22_add_years.
Theorem C22_add_days : forall ts n day x, Z.abs (ts + 28800) <= 2 ^ 54 -> Z.abs n <= 2 ^ 30 ->
  day_is day (tm_date (localtime_fixed_r ts TZ)) -> day_is (day + n) x ->
  let t' := localtime_fixed_r (date_add_interval ts n DAY) TZ in
  tm_date t' = x /\ same_tod (localtime_fixed_r ts TZ) t'.
Proof. exact add_days. Qed.
Print Assumptions C22_add_days.
Theorem C22_add_seconds : forall ts n u k, unit_seconds u = Some k ->
  date_add_interval ts n u = ts + n * k /\ date_sub_interval ts n u = ts - n * k.
Proof. intros ts n u k H. unfold date_sub_interval. rewrite !(add_seconds _ _ _ k) by auto. lia. Qed.
Print Assumptions C22_add_seconds.
(* The start of a day *)
Theorem C22_day_start : forall ts, Z.abs (ts + 28800) <= 2 ^ 53 ->
  let r := get_current_day_timestamp ts in r <= ts < r + 86400 /\ (r + 28800) mod 86400 = 0.
Proof. exact day_start. Qed.
Print Assumptions C22_day_start.
Definition ts_of (y m d : Z) : Z := dnum (y, m, d) * 86400 - 28800.
Example C22_nonvacuous :
  tm_date (localtime_fixed_r (date_add_interval (ts_of 2024 3 31) (-1) MONTH) TZ) = (2024, 2, 29) /\
  tm_date (localtime_fixed_r (date_add_interval (ts_of 2023 1 31) (-11) MONTH) TZ) = (2022, 2, 28) /\
  tm_date (localtime_fixed_r (date_add_interval (ts_of 2024 2 29) 1 YEAR) TZ) = (2025, 2, 28) /\
  (* the defect: one year before 15 January 2024 is given as 15 January 2022 *)
  tm_date (localtime_fixed_r (date_add_interval (ts_of 2024 1 15) (-12) MONTH) TZ) = (2022, 1, 15) /\
  add_months (2024, 1, 15) (-12) = (2023, 1, 15).
Proof. vm_compute. auto 10. Qed.
