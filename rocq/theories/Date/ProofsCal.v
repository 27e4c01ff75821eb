From Verif.Date Require Import Model Spec Tables.
Local Open Scope Z_scope.

Lemma u32_id x : 0 <= x < 2 ^ 32 -> u32 x = x.
Proof. intros. apply Z.mod_small; lia. Qed.
Lemma i32_id x : - 2 ^ 31 <= x < 2 ^ 31 -> i32 x = x.
Proof.
  intros Hx. unfold i32. destruct (Z.leb_spec 0 x).
  - rewrite Z.mod_small by lia. destruct (Z.ltb_spec x (2 ^ 31)); lia.
  - replace (x mod 2 ^ 32) with (x + 2 ^ 32).
    + destruct (Z.ltb_spec (x + 2 ^ 32) (2 ^ 31)); lia.
    + apply Z.mod_unique with (-1); lia.
Qed.
Lemma div_floor_eq a b : 0 < b -> div_floor a b = a / b.
Proof.
  intros Hb. unfold div_floor. destruct (Z.leb_spec 0 a).
  - apply Z.quot_div_nonneg; lia.
  - replace (a + 1 - b) with (- (- a - 1 + b)) by lia.
    rewrite Z.quot_opp_l, Z.quot_div_nonneg by lia.
    assert (a = b * (a / b) + a mod b) by (apply Z.div_mod; lia).
    pose proof (Z.mod_pos_bound a b Hb).
    replace (- a - 1 + b) with (b - 1 - a mod b + (- (a / b)) * b) by lia.
    rewrite Z.div_add by lia. rewrite Z.div_small by lia. lia.
Qed.
Lemma rem0 a b : 0 < b -> (Z.rem a b =? 0) = (a mod b =? 0).
Proof.
  intros. destruct (Z.eqb_spec (Z.rem a b) 0) as [E|E]; destruct (Z.eqb_spec (a mod b) 0) as [E2|E2]; auto; exfalso.
  - apply E2. apply Z.rem_divide in E; [|lia]. apply Z.mod_divide; [lia|auto].
  - apply E. apply Z.mod_divide in E2; [|lia]. apply Z.rem_divide; [lia|auto].
Qed.
Lemma is_leap_eq y : is_leap y = leap y.
Proof. unfold is_leap, leap. rewrite !rem0 by lia. reflexivity. Qed.

Definition dfc (y m d : Z) : Z :=
  let y' := if m <=? 2 then y - 1 else y in
  y' / 400 * 146097 + (y' mod 400 * 365 + y' mod 400 / 4 - y' mod 400 / 100
    + ((153 * (if 2 <? m then m - 3 else m + 9) + 2) / 5 + d - 1)) - 719468.

Lemma dfc_eq y m d : 1 <= m <= 12 -> 1 <= d <= 31 -> days_from_civil y m d = dfc y m d.
Proof.
  intros Hm Hd. unfold days_from_civil, dfc. rewrite div_floor_eq by lia.
  set (y' := if m <=? 2 then y - 1 else y).
  replace (y' - y' / 400 * 400) with (y' mod 400) by (rewrite Z.mod_eq by lia; lia).
  assert (0 <= y' mod 400 < 400) by (apply Z.mod_pos_bound; lia).
  set (q := y' mod 400) in *.
  replace (m + (if 2 <? m then -3 else 9)) with (if 2 <? m then m - 3 else m + 9) by (destruct (2 <? m); lia).
  rewrite (u32_id q) by lia.
  set (k := if 2 <? m then m - 3 else m + 9).
  assert (0 <= k <= 11) by (subst k; destruct (Z.ltb_spec 2 m); lia).
  rewrite (u32_id k) by lia. rewrite (u32_id (153 * k + 2)) by lia.
  assert (0 <= (153 * k + 2) / 5 <= 337) by (split; [apply Z.div_pos; lia|apply Z.div_le_upper_bound; lia]).
  rewrite (u32_id (_ / 5 + d - 1)) by lia.
  assert (0 <= q / 4 < 400 /\ 0 <= q / 100 < 4).
  { repeat split; try (apply Z.div_pos; lia); apply Z.div_lt_upper_bound; lia. }
  rewrite u32_id by lia. lia.
Qed.

Lemma leap_period y k : leap (y + k * 400) = leap y.
Proof.
  unfold leap. replace (k * 400) with (k * 100 * 4) at 1 by lia.
  rewrite Z.mod_add by lia. replace (k * 400) with (k * 4 * 100) at 1 by lia.
  rewrite !Z.mod_add by lia. reflexivity.
Qed.
Lemma month_len_period y k m : month_len (y + k * 400) m = month_len y m.
Proof. unfold month_len. rewrite leap_period. reflexivity. Qed.
Lemma month_len_bound y m : 28 <= month_len y m <= 31.
Proof.
  unfold month_len. destruct m as [|p|p]; try lia.
  do 4 (try (destruct p as [p|p|]; try lia)); destruct (leap y); lia.
Qed.

Lemma civ_facts days : let '(y, m, d) := civ days in valid_date (y, m, d) /\ dfc y m d = days.
Proof.
  unfold civ. set (z := days + 719468).
  assert (R : 0 <= z mod 146097 < 146097) by (apply Z.mod_pos_bound; lia).
  assert (E : z = 146097 * (z / 146097) + z mod 146097) by (apply Z.div_mod; lia).
  set (doe := z mod 146097) in *. set (era := z / 146097) in *.
  pose proof (era_table doe ltac:(lia)) as T. unfold era_ok in T.
  set (yoe := (doe - doe / 1460 + doe / 36524 - doe / 146096) / 365) in *.
  set (doy := doe - (365 * yoe + yoe / 4 - yoe / 100)) in *.
  set (mp := (5 * doy + 2) / 153) in *.
  set (day := doy - (153 * mp + 2) / 5 + 1) in *.
  set (month := if mp <? 10 then mp + 3 else mp - 9) in *.
  repeat (apply andb_true_iff in T as [T ?]).
  repeat match goal with
  | h : (_ <=? _) = true |- _ => apply Z.leb_le in h
  | h : (_ <? _) = true |- _ => apply Z.ltb_lt in h
  | h : (_ =? _) = true |- _ => apply Z.eqb_eq in h end.
  assert (M : 1 <= month <= 12) by (subst month; destruct (Z.ltb_spec mp 10); lia).
  split.
  - cbn [valid_date]. split; [auto|]. split; [auto|].
    replace (yoe + era * 400 + (if month <=? 2 then 1 else 0))
      with (yoe + (if month <=? 2 then 1 else 0) + era * 400) by lia.
    rewrite month_len_period. auto.
  - unfold dfc.
    replace (if month <=? 2 then yoe + era * 400 + (if month <=? 2 then 1 else 0) - 1
             else yoe + era * 400 + (if month <=? 2 then 1 else 0)) with (yoe + era * 400)
      by (destruct (month <=? 2); lia).
    rewrite Z.div_add, Z.mod_add by lia. rewrite Z.div_small, Z.mod_small by lia. lia.
Qed.
Lemma civ_valid days : valid_date (civ days).
Proof. pose proof (civ_facts days). destruct (civ days) as [[y m] d]. tauto. Qed.
Lemma dfc_civ days : let '(y, m, d) := civ days in dfc y m d = days.
Proof. pose proof (civ_facts days). destruct (civ days) as [[y m] d]. tauto. Qed.

Lemma civ_period days k : civ (days + k * 146097) = let '(y, m, d) := civ days in (y + k * 400, m, d).
Proof.
  unfold civ. replace (days + k * 146097 + 719468) with (days + 719468 + k * 146097) by lia.
  rewrite Z.div_add, Z.mod_add by lia. f_equal. f_equal. lia.
Qed.

Lemma civ_dfc y m d : valid_date (y, m, d) -> civ (dfc y m d) = (y, m, d).
Proof.
  cbn [valid_date]. intros [Hm Hd]. pose proof (month_len_bound y m).
  set (y' := if m <=? 2 then y - 1 else y).
  set (mp := if 2 <? m then m - 3 else m + 9).
  assert (Hq : 0 <= y' mod 400 < 400) by (apply Z.mod_pos_bound; lia).
  assert (E : y' = 400 * (y' / 400) + y' mod 400) by (apply Z.div_mod; lia).
  set (yoe := y' mod 400) in *. set (era := y' / 400) in *.
  assert (Hmp : 0 <= mp < 12) by (subst mp; destruct (Z.ltb_spec 2 m); lia).
  pose proof (date_table (372 * yoe + 31 * mp + (d - 1)) ltac:(lia)) as T.
  unfold date_ok in T.
  assert (E1 : (372 * yoe + 31 * mp + (d - 1)) / 372 = yoe).
  { symmetry; apply Z.div_unique with (31 * mp + (d - 1)); lia. }
  assert (E2 : (372 * yoe + 31 * mp + (d - 1)) mod 372 = 31 * mp + (d - 1)).
  { symmetry; apply Z.mod_unique with yoe; lia. }
  assert (E3 : (31 * mp + (d - 1)) / 31 = mp).
  { symmetry; apply Z.div_unique with (d - 1); lia. }
  assert (E4 : (372 * yoe + 31 * mp + (d - 1)) mod 31 = d - 1).
  { symmetry; apply Z.mod_unique with (12 * yoe + mp); lia. }
  rewrite E1, E2, E3, E4 in T.
  assert (E5 : (if mp <? 10 then mp + 3 else mp - 9) = m).
  { subst mp. destruct (Z.ltb_spec 2 m).
    - destruct (Z.ltb_spec (m - 3) 10); lia.
    - destruct (Z.ltb_spec (m + 9) 10); lia. }
  rewrite E5 in T.
  assert (EY : y = yoe + (if m <=? 2 then 1 else 0) + era * 400).
  { subst y'. destruct (Z.leb_spec m 2); lia. }
  replace (d - 1 + 1) with d in T by lia.
  replace (month_len (yoe + (if m <=? 2 then 1 else 0)) m) with (month_len y m) in T
    by (rewrite EY at 1; apply month_len_period).
  destruct (Z.ltb_spec (month_len y m) d); [lia|].
  set (doe := 365 * yoe + yoe / 4 - yoe / 100 + ((153 * mp + 2) / 5 + d - 1)) in T.
  apply andb_true_iff in T as [_ T].
  replace (dfc y m d) with (doe - 719468 + era * 146097).
  - rewrite civ_period. destruct (civ (doe - 719468)) as [[a b] c].
    repeat (apply andb_true_iff in T as [T ?]).
    repeat match goal with h : (_ =? _) = true |- _ => apply Z.eqb_eq in h end.
    subst a b c. f_equal. f_equal. lia.
  - unfold dfc. fold y' mp yoe era. unfold doe. lia.
Qed.

(* Successive days *)
Lemma next_day_valid x : valid_date x -> valid_date (next_day x).
Proof.
  destruct x as [[y m] d]; cbn [valid_date next_day]; intros [Hm Hd].
  destruct (Z.ltb_spec d (month_len y m)); [cbn [valid_date]; lia|].
  destruct (Z.ltb_spec m 12); cbn [valid_date].
  - pose proof (month_len_bound y (m + 1)). lia.
  - pose proof (month_len_bound (y + 1) 1). lia.
Qed.

Definition yd (y : Z) : Z := y / 400 * 146097 + (y mod 400 * 365 + y mod 400 / 4 - y mod 400 / 100).
Definition dnum (x : date) : Z := let '(y, m, d) := x in dfc y m d.
Lemma yd_next y : yd (y + 1) = yd y + 365 + (if leap (y + 1) then 1 else 0).
Proof.
  unfold yd, leap.
  assert (E4 : (y + 1) mod 4 = ((y + 1) mod 400) mod 4).
  { pose proof (Z.div_mod (y + 1) 400 ltac:(lia)) as E. rewrite E at 1.
    replace (400 * ((y + 1) / 400)) with (100 * ((y + 1) / 400) * 4) by lia.
    rewrite Z.add_comm, Z.mod_add by lia. reflexivity. }
  assert (E100 : (y + 1) mod 100 = ((y + 1) mod 400) mod 100).
  { pose proof (Z.div_mod (y + 1) 400 ltac:(lia)) as E. rewrite E at 1.
    replace (400 * ((y + 1) / 400)) with (4 * ((y + 1) / 400) * 100) by lia.
    rewrite Z.add_comm, Z.mod_add by lia. reflexivity. }
  rewrite E4, E100. clear E4 E100.
  assert (Hq : 0 <= y mod 400 < 400) by (apply Z.mod_pos_bound; lia).
  assert (E : y = 400 * (y / 400) + y mod 400) by (apply Z.div_mod; lia).
  set (q := y mod 400) in *. set (e := y / 400) in *.
  set (T := fun q => if q <? 399
     then (q + 1) * 365 + (q + 1) / 4 - (q + 1) / 100 =? q * 365 + q / 4 - q / 100 + 365 + (if ((q + 1) mod 4 =? 0) && (negb ((q + 1) mod 100 =? 0) || (q + 1 =? 0)) then 1 else 0)
     else 146097 =? q * 365 + q / 4 - q / 100 + 365 + 1).
  assert (HT : chk T 400 0 = true) by (vm_compute; reflexivity).
  pose proof (chk_spec _ _ _ HT q ltac:(lia)) as C. unfold T in C. clear HT T.
  destruct (Z.ltb_spec q 399).
  - assert (E1 : (y + 1) / 400 = e) by (symmetry; apply Z.div_unique with (q + 1); lia).
    assert (E2 : (y + 1) mod 400 = q + 1) by (symmetry; apply Z.mod_unique with e; lia).
    rewrite E1, E2. apply Z.eqb_eq in C. lia.
  - assert (q = 399) by lia.
    assert (E1 : (y + 1) / 400 = e + 1) by (symmetry; apply Z.div_unique with 0; lia).
    assert (E2 : (y + 1) mod 400 = 0) by (symmetry; apply Z.mod_unique with (e + 1); lia).
    rewrite E1, E2. apply Z.eqb_eq in C.
    change ((0 mod 4 =? 0) && (negb (0 mod 100 =? 0) || (0 =? 0))) with true. cbn iota.
    change (0 / 4) with 0. change (0 / 100) with 0. lia.
Qed.

Lemma dnum_next x : valid_date x -> dnum (next_day x) = dnum x + 1.
Proof.
  destruct x as [[y m] d]. intros [Hm Hd]. cbn [next_day].
  destruct (Z.ltb_spec d (month_len y m)) as [L|L].
  { cbn [dnum]. unfold dfc. lia. }
  assert (d = month_len y m) by lia. subst d. clear L Hd.
  assert (C : m = 1 \/ m = 2 \/ m = 3 \/ m = 4 \/ m = 5 \/ m = 6 \/ m = 7 \/ m = 8 \/ m = 9 \/ m = 10 \/ m = 11 \/ m = 12) by lia.
  assert (Y : forall y m d, dfc y m d = yd (if m <=? 2 then y - 1 else y)
     + ((153 * (if 2 <? m then m - 3 else m + 9) + 2) / 5 + d - 1) - 719468).
  { intros. unfold dfc, yd. lia. }
  destruct C as [?|[?|[?|[?|[?|[?|[?|[?|[?|[?|[?|?]]]]]]]]]]]; subst m; cbn [dnum Z.ltb Z.compare Pos.compare Pos.compare_cont];
    cbn -[dfc month_len Z.mul Z.add Z.sub]; rewrite !Y; unfold month_len;
    cbn -[yd leap Z.mul Z.sub Z.add Z.div];
    change (1 + 1) with 2; change (2 + 1) with 3; change (3 + 1) with 4; change (4 + 1) with 5; change (5 + 1) with 6;
    change (6 + 1) with 7; change (7 + 1) with 8; change (8 + 1) with 9; change (9 + 1) with 10;
    change (10 + 1) with 11; change (11 + 1) with 12; cbn -[yd leap Z.mul Z.sub Z.add Z.div]; try lia.
  - replace y with (y - 1 + 1) at 1 by lia. rewrite yd_next. replace (y - 1 + 1) with y by lia.
    destruct (leap y); change ((153 * (3 - 3) + 2) / 5) with 0; change ((153 * (2 + 9) + 2) / 5) with 337; lia.
  - replace (y + 1 - 1) with y by lia. change ((153 * (1 + 9) + 2) / 5) with 306. change ((153 * (12 - 3) + 2) / 5) with 275. lia.
Qed.

Lemma civ_dnum x : valid_date x -> civ (dnum x) = x.
Proof. destruct x as [[y m] d]. apply civ_dfc. Qed.
Lemma dnum_civ n : dnum (civ n) = n.
Proof. pose proof (dfc_civ n). destruct (civ n) as [[y m] d]. auto. Qed.
Lemma civ_next n : civ (n + 1) = next_day (civ n).
Proof.
  rewrite <- (civ_dnum (next_day (civ n))) by (apply next_day_valid, civ_valid).
  rewrite dnum_next by apply civ_valid. rewrite dnum_civ. reflexivity.
Qed.
Lemma day_is_civ n : day_is n (civ n).
Proof.
  destruct (Z.le_gt_cases 0 n) as [H|H].
  - pattern n. apply natlike_ind; auto.
    + apply day_epoch.
    + intros x Hx IH. rewrite <- Z.add_1_r, civ_next. apply day_next; auto.
  - replace n with (- - n) by lia. assert (Hn : 0 <= - n) by lia. revert Hn. generalize (- n). clear n H.
    intros n Hn. pattern n. apply natlike_ind; auto.
    + apply day_epoch.
    + intros x Hx IH. apply day_prev; [apply civ_valid|].
      rewrite <- civ_next. replace (- Z.succ x + 1) with (- x) by lia. auto.
Qed.
Lemma day_is_dnum n x : day_is n x -> valid_date x /\ dnum x = n.
Proof.
  induction 1 as [|n x _ [V IH]|n x V _ [_ IH]].
  - split; [cbn; lia|reflexivity].
  - split; [apply next_day_valid; auto|]. rewrite dnum_next; auto. lia.
  - split; [auto|]. rewrite dnum_next in IH; auto. lia.
Qed.
Lemma day_is_iff n x : day_is n x <-> valid_date x /\ dnum x = n.
Proof.
  split; [apply day_is_dnum|]. intros [V <-]. rewrite <- (civ_dnum x) at 2 by auto. apply day_is_civ.
Qed.
Lemma day_is_fun n x y : day_is n x -> day_is n y -> x = y.
Proof. intros [V E]%day_is_dnum [V2 E2]%day_is_dnum. rewrite <- (civ_dnum x), <- (civ_dnum y), E, E2; auto. Qed.
