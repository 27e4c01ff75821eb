From Verif.Date Require Import Model Spec Reading Tables ProofsCal ProofsTime ProofsPack.
Local Open Scope Z_scope.

Lemma dim_len y mon : 0 <= mon < 12 ->
  nth (Z.to_nat mon) days_in_month 0 + (if (mon + 1 =? 2) && leap y then 1 else 0) = month_len y (mon + 1).
Proof.
  intros Hm.
  assert (C : mon = 0 \/ mon = 1 \/ mon = 2 \/ mon = 3 \/ mon = 4 \/ mon = 5 \/ mon = 6 \/ mon = 7 \/ mon = 8 \/ mon = 9 \/ mon = 10 \/ mon = 11) by lia.
  destruct C as [?|[?|[?|[?|[?|[?|[?|[?|[?|[?|[?|?]]]]]]]]]]]; subst mon; cbv -[leap]; destruct (leap y); reflexivity.
Qed.
Lemma feb29 y d : d = 29 -> d <= month_len y 2 -> leap y = true.
Proof. intros ->. unfold month_len. destruct (leap y); auto; lia. Qed.

(* what add_ym computes *)
Lemma add_ym_month n y mon d : 0 <= mon < 12 -> 1 <= d <= 31 -> Z.abs n <= 2 ^ 30 -> Z.abs y <= 2 ^ 30 ->
  (let '(y', mon', d') := add_ym false n y mon d in (y', mon' + 1, d')) =
  add_months (y, mon + 1, d) (if (mon + n <? 0) && ((mon + n) mod 12 =? 0) then n - 12 else n).
Proof.
  intros Hm Hd Hn Hy. unfold add_ym. rewrite (i32_id (mon + n)) by lia. set (k := mon + n) in *.
  assert (Q : i32 (y + Z.quot k 12 + (if k <? 0 then -1 else 0)) =
     (12 * y + mon + (if (k <? 0) && (k mod 12 =? 0) then n - 12 else n)) / 12 /\
     Z.rem (Z.rem k 12 + 12) 12 = (12 * y + mon + (if (k <? 0) && (k mod 12 =? 0) then n - 12 else n)) mod 12).
  { pose proof (Z.quot_rem k 12 ltac:(lia)) as E.
    destruct (Z.ltb_spec k 0).
    - pose proof (Z.rem_bound_pos (- k) 12 ltac:(lia) ltac:(lia)) as B. rewrite Z.rem_opp_l in B by lia.
      assert (KM : k mod 12 = if Z.rem k 12 =? 0 then 0 else Z.rem k 12 + 12).
      { destruct (Z.eqb_spec (Z.rem k 12) 0); symmetry.
        - apply Z.mod_unique with (Z.quot k 12); lia.
        - apply Z.mod_unique with (Z.quot k 12 - 1); lia. }
      destruct (Z.eqb_spec (Z.rem k 12) 0) as [R|R].
      + rewrite KM. cbn [andb Z.eqb]. rewrite R. change (Z.rem (0 + 12) 12) with 0. rewrite i32_id by lia. split.
        * apply Z.div_unique with 0; lia.
        * apply Z.mod_unique with (y + Z.quot k 12 - 1); lia.
      + rewrite KM. destruct (Z.eqb_spec (Z.rem k 12 + 12) 0); [lia|]. cbn [andb].
        rewrite i32_id by lia. rewrite (Z.rem_small (Z.rem k 12 + 12)) by lia. split.
        * apply Z.div_unique with (Z.rem k 12 + 12); lia.
        * apply Z.mod_unique with (y + Z.quot k 12 - 1); lia.
    - cbn [andb]. pose proof (Z.rem_bound_pos k 12 ltac:(lia) ltac:(lia)) as B.
      rewrite i32_id by lia. rewrite (Z.rem_mod_nonneg (Z.rem k 12 + 12)) by lia.
      replace (Z.rem k 12 + 12) with (Z.rem k 12 + 1 * 12) by lia. rewrite Z.mod_add, Z.mod_small by lia. split.
      + apply Z.div_unique with (Z.rem k 12); lia.
      + apply Z.mod_unique with (y + Z.quot k 12); lia. }
  destruct Q as [Q1 Q2]. rewrite Q1, Q2. unfold add_months. replace (mon + 1 - 1) with mon by lia.
  set (z := 12 * y + mon + (if (k <? 0) && (k mod 12 =? 0) then n - 12 else n)).
  assert (M12 : 0 <= z mod 12 < 12) by (apply Z.mod_pos_bound; lia).
  rewrite <- (dim_len (z / 12) (z mod 12)) by lia. rewrite is_leap_eq.
  f_equal. set (dim := nth (Z.to_nat (z mod 12)) days_in_month 0).
  assert (HD : 28 <= dim <= 31).
  { subst dim. assert (C : z mod 12 = 0 \/ z mod 12 = 1 \/ z mod 12 = 2 \/ z mod 12 = 3 \/ z mod 12 = 4 \/ z mod 12 = 5 \/ z mod 12 = 6 \/ z mod 12 = 7 \/ z mod 12 = 8 \/ z mod 12 = 9 \/ z mod 12 = 10 \/ z mod 12 = 11) by lia.
    destruct C as [e|[e|[e|[e|[e|[e|[e|[e|[e|[e|[e|e]]]]]]]]]]]; rewrite e; vm_compute; split; discriminate. }
  destruct (Z.ltb_spec dim d); destruct ((z mod 12 + 1 =? 2) && leap (z / 12)); lia.
Qed.
Lemma add_ym_year n y mon d : valid_date (y, mon + 1, d) -> Z.abs n <= 2 ^ 30 -> Z.abs y <= 2 ^ 29 ->
  (let '(y', mon', d') := add_ym true n y mon d in (y', mon' + 1, d')) = add_months (y, mon + 1, d) (12 * n).
Proof.
  intros [Hm Hd] Hn Hy. unfold add_ym. rewrite i32_id by lia. rewrite is_leap_eq. unfold add_months.
  replace ((12 * y + (mon + 1 - 1) + 12 * n) / 12) with (y + n) by (apply Z.div_unique with mon; lia).
  replace ((12 * y + (mon + 1 - 1) + 12 * n) mod 12) with mon by (apply Z.mod_unique with (y + n); lia).
  f_equal. destruct (Z.eqb_spec (mon + 1) 2) as [E|E]; cbn [andb].
  - rewrite E in *. unfold month_len in *. destruct (Z.eqb_spec d 29); cbn [andb negb]; destruct (leap (y + n)); destruct (leap y); cbn [negb]; lia.
  - assert (month_len (y + n) (mon + 1) = month_len y (mon + 1)).
    { assert (C : mon = 0 \/ mon = 2 \/ mon = 3 \/ mon = 4 \/ mon = 5 \/ mon = 6 \/ mon = 7 \/ mon = 8 \/ mon = 9 \/ mon = 10 \/ mon = 11) by lia.
      destruct C as [e|[e|[e|[e|[e|[e|[e|[e|[e|[e|e]]]]]]]]]]; subst mon; reflexivity. }
    rewrite H. lia.
Qed.
Lemma add_months_valid x n : valid_date x -> valid_date (add_months x n).
Proof.
  destruct x as [[y m] d]. intros [Hm Hd]. unfold add_months. cbn [valid_date].
  set (k := 12 * y + (m - 1) + n). pose proof (Z.mod_pos_bound k 12 ltac:(lia)).
  pose proof (month_len_bound (k / 12) (k mod 12 + 1)). lia.
Qed.


Lemma year_bound ts : Z.abs (ts + 28800) <= 2 ^ 53 -> Z.abs (tm_year (localtime_fixed_r ts TZ) + 1900) <= 2 ^ 28 + 2^26.
Proof.
  intros Hb. pose proof (localtime_spec ts TZ ltac:(unfold TZ; lia)) as (D & _ & _ & _ & _ & _ & V & _).
  pose proof (dnum_civ ((ts + TZ * 3600) / 86400)) as E. rewrite <- D in E.
  unfold tm_date in *. pose proof (dnum_bound _ _ _ V) as B. rewrite E in B. unfold TZ in *.
  set (y := tm_year (localtime_fixed_r ts 8) + 1900) in *. clearbody y. clear D V E. Z.div_mod_to_equations. lia.
Qed.
Lemma add_result ts n u y' mon' d' t :
  t = localtime_fixed_r ts TZ -> (u = YEAR \/ u = MONTH) ->
  add_ym (match u with YEAR => true | _ => false end) n (tm_year t + 1900) (tm_mon t) (tm_mday t) = (y', mon', d') ->
  valid_date (y', mon' + 1, d') -> Z.abs y' <= 2 ^ 29 -> valid_tod (tm_hour t) (tm_min t) (tm_sec t) ->
  let t' := localtime_fixed_r (date_add_interval ts n u) TZ in
  tm_date t' = (y', mon' + 1, d') /\ same_tod t t'.
Proof.
  intros Et Hu E V Hy T. cbv zeta.
  assert (R : date_add_interval ts n u = dnum (y', mon' + 1, d') * 86400 + tm_hour t * 3600 + tm_min t * 60 + tm_sec t - TZ * 3600).
  { destruct Hu; subst u; cbn [date_add_interval]; rewrite <- Et; cbn iota in E; rewrite E;
      rewrite i32_id by lia; rewrite mktime_spec; unfold tm_date; cbn [tm_year tm_mon tm_mday tm_hour tm_min tm_sec];
      replace (y' - 1900 + 1900) with y' by lia; auto; lia. }
  rewrite R. pose proof (localtime_of_fields y' (mon' + 1) d' _ _ _ TZ V T Hy) as (D & H & M & Sc).
  split; [exact D|]. unfold same_tod. auto.
Qed.
Definition month_shift (mon n : Z) : Z := if (mon + n <? 0) && ((mon + n) mod 12 =? 0) then n - 12 else n.
Theorem add_month_result ts n : Z.abs (ts + 28800) <= 2 ^ 53 -> Z.abs n <= 2 ^ 27 ->
  let t := localtime_fixed_r ts TZ in let t' := localtime_fixed_r (date_add_interval ts n MONTH) TZ in
  tm_date t' = add_months (tm_date t) (month_shift (tm_mon t) n) /\ same_tod t t'.
Proof.
  intros Hb Hn. cbv zeta. pose proof (localtime_spec ts TZ ltac:(unfold TZ; lia)) as (_ & _ & _ & _ & _ & _ & V & T & _).
  pose proof (year_bound ts Hb) as Y. set (t := localtime_fixed_r ts TZ) in *.
  unfold tm_date in V |- *. destruct V as [Hm Hd] eqn:EV. pose proof (month_len_bound (tm_year t + 1900) (tm_mon t + 1)).
  pose proof (add_ym_month n (tm_year t + 1900) (tm_mon t) (tm_mday t) ltac:(lia) ltac:(lia) ltac:(lia) ltac:(lia)) as A.
  fold (month_shift (tm_mon t) n) in A.
  destruct (add_ym false n (tm_year t + 1900) (tm_mon t) (tm_mday t)) as [[y' mon'] d'] eqn:E.
  rewrite <- A. pose proof (add_months_valid (tm_year t + 1900, tm_mon t + 1, tm_mday t) (month_shift (tm_mon t) n) (conj Hm Hd)) as V'.
  rewrite <- A in V'.
  apply add_result; auto.
  assert (Y' : y' = (12 * (tm_year t + 1900) + (tm_mon t + 1 - 1) + month_shift (tm_mon t) n) / 12).
  { unfold add_months in A. injection A as -> _ _. reflexivity. }
  assert (Z.abs (month_shift (tm_mon t) n) <= 2 ^ 27 + 12) by (unfold month_shift; destruct (_ && _); lia).
  subst y'. clear - Y H0 Hm. set (z := 12 * (tm_year t + 1900) + (tm_mon t + 1 - 1) + month_shift (tm_mon t) n).
  assert (- (2 ^ 29) <= z / 12) by (apply Z.div_le_lower_bound; lia).
  assert (z / 12 <= 2 ^ 29) by (apply Z.div_le_upper_bound; lia). lia.
Qed.
Theorem add_year_result ts n : Z.abs (ts + 28800) <= 2 ^ 53 -> Z.abs n <= 2 ^ 27 ->
  let t := localtime_fixed_r ts TZ in let t' := localtime_fixed_r (date_add_interval ts n YEAR) TZ in
  tm_date t' = add_months (tm_date t) (12 * n) /\ same_tod t t'.
Proof.
  intros Hb Hn. cbv zeta. pose proof (localtime_spec ts TZ ltac:(unfold TZ; lia)) as (_ & _ & _ & _ & _ & _ & V & T & _).
  pose proof (year_bound ts Hb) as Y. set (t := localtime_fixed_r ts TZ) in *. unfold tm_date in V |- *.
  pose proof (add_ym_year n (tm_year t + 1900) (tm_mon t) (tm_mday t) V ltac:(lia) ltac:(lia)) as A.
  destruct (add_ym true n (tm_year t + 1900) (tm_mon t) (tm_mday t)) as [[y' mon'] d'] eqn:E.
  rewrite <- A. pose proof (add_months_valid (tm_year t + 1900, tm_mon t + 1, tm_mday t) (12 * n) V) as V'. rewrite <- A in V'.
  apply add_result; auto.
  unfold add_ym in E. injection E as Ey _ _. rewrite i32_id in Ey by lia. lia.
Qed.
Theorem add_months_ok ts n : Z.abs (ts + 28800) <= 2 ^ 53 -> Z.abs n <= 2 ^ 27 ->
  let t := localtime_fixed_r ts TZ in
  ~ (tm_mon t + n < 0 /\ (tm_mon t + n) mod 12 = 0) ->
  let t' := localtime_fixed_r (date_add_interval ts n MONTH) TZ in
  tm_date t' = add_months (tm_date t) n /\ same_tod t t'.
Proof.
  intros Hb Hn t H. pose proof (add_month_result ts n Hb Hn) as R. cbv zeta in *. fold t in R.
  replace (month_shift (tm_mon t) n) with n in R; [exact R|].
  unfold month_shift. destruct (Z.ltb_spec (tm_mon t + n) 0); auto. destruct (Z.eqb_spec ((tm_mon t + n) mod 12) 0); auto. tauto.
Qed.
Theorem add_months_wrong ts n : Z.abs (ts + 28800) <= 2 ^ 53 -> Z.abs n <= 2 ^ 27 ->
  let t := localtime_fixed_r ts TZ in
  tm_mon t + n < 0 -> (tm_mon t + n) mod 12 = 0 ->
  let t' := localtime_fixed_r (date_add_interval ts n MONTH) TZ in
  tm_date t' = add_months (tm_date t) (n - 12) /\ same_tod t t'.
Proof.
  intros Hb Hn t H1 H2. pose proof (add_month_result ts n Hb Hn) as R. cbv zeta in *. fold t in R.
  unfold month_shift in R. rewrite H2 in R. destruct (Z.ltb_spec (tm_mon t + n) 0); [|lia]. exact R.
Qed.

(* Days and time units *)
Theorem add_seconds ts n u k : unit_seconds u = Some k -> date_add_interval ts n u = ts + n * k.
Proof. destruct u; intros E; inversion E; cbn [date_add_interval]; lia. Qed.
Theorem add_days ts n day x : Z.abs (ts + 28800) <= 2 ^ 54 -> Z.abs n <= 2 ^ 30 ->
  day_is day (tm_date (localtime_fixed_r ts TZ)) -> day_is (day + n) x ->
  let t' := localtime_fixed_r (date_add_interval ts n DAY) TZ in
  tm_date t' = x /\ same_tod (localtime_fixed_r ts TZ) t'.
Proof.
  intros Hb Hn D X. cbv zeta. cbn [date_add_interval].
  pose proof (localtime_spec ts TZ ltac:(unfold TZ; lia)) as (D0 & H0 & M0 & S0 & _).
  pose proof (localtime_spec (ts + n * 86400) TZ ltac:(unfold TZ; lia)) as (D1 & H1 & M1 & S1 & _).
  unfold TZ in *. set (s := ts + 8 * 3600) in *.
  replace (ts + n * 86400 + 8 * 3600) with (s + n * 86400) in * by (subst s; lia).
  rewrite D0 in D. apply day_is_dnum in D as [_ D]. rewrite dnum_civ in D.
  split.
  - rewrite D1. rewrite Z.div_add by lia. rewrite D. apply day_is_fun with (day + n); auto. apply day_is_civ.
  - unfold same_tod. rewrite H0, M0, S0, H1, M1, S1. rewrite Z.mod_add by lia.
    replace (s + n * 86400) with (s + (24 * n) * 3600) at 1 by lia. rewrite Z.mod_add by lia.
    replace (s + n * 86400) with (s + (1440 * n) * 60) by lia. rewrite Z.mod_add by lia. auto.
Qed.
Theorem day_start ts : Z.abs (ts + 28800) <= 2 ^ 53 ->
  let r := get_current_day_timestamp ts in
  r <= ts < r + 86400 /\ (r + 28800) mod 86400 = 0.
Proof.
  intros Hb. cbv zeta. unfold get_current_day_timestamp.
  pose proof (localtime_spec ts TZ ltac:(unfold TZ; lia)) as (D & H & M & Sc & _ & _ & V & T & Y).
  rewrite mktime_spec; unfold tm_date in *; cbn [tm_year tm_mon tm_mday tm_hour tm_min tm_sec]; [|auto|lia].
  rewrite D, dnum_civ. unfold TZ in *. set (s := ts + 8 * 3600) in *.
  pose proof (Z.div_mod s 86400 ltac:(lia)). pose proof (Z.mod_pos_bound s 86400 ltac:(lia)). split; [lia|].
  symmetry. apply Z.mod_unique with (s / 86400); lia.
Qed.
