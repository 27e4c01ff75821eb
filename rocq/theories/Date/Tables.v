(* The arithmetic of one 400-year era.  Years and months are finite tables of 400 and 366
   rows; days are related to years by monotonicity.  Independent of the model. *)
From Coq Require Import ZArith List Bool Lia.
From Verif.Date Require Import Spec.
Local Open Scope Z_scope.

Definition civ (days : Z) : date :=
  let z := days + 719468 in
  let era := z / 146097 in
  let doe := z mod 146097 in
  let yoe := (doe - doe / 1460 + doe / 36524 - doe / 146096) / 365 in
  let doy := doe - (365 * yoe + yoe / 4 - yoe / 100) in
  let mp := (5 * doy + 2) / 153 in
  let day := doy - (153 * mp + 2) / 5 + 1 in
  let month := if mp <? 10 then mp + 3 else mp - 9 in
  (yoe + era * 400 + (if month <=? 2 then 1 else 0), month, day).

Fixpoint chk (P : Z -> bool) (n : nat) (z : Z) : bool :=
  match n with O => true | S k => P z && chk P k (z + 1) end.
Lemma chk_spec P n z : chk P n z = true -> forall x, z <= x < z + Z.of_nat n -> P x = true.
Proof.
  revert z; induction n as [|n IH]; cbn [chk]; intros z H x Hx; [lia|].
  apply andb_true_iff in H as [H1 H2]. destruct (Z.eq_dec x z) as [->|]; [auto|]. apply (IH (z + 1)); auto; lia.
Qed.

Definition pre (doe : Z) : Z := doe - doe / 1460 + doe / 36524 - doe / 146096.
Lemma pre_step d : 0 <= d -> pre d <= pre (d + 1).
Proof.
  intros Hd. unfold pre.
  replace 146096 with (36524 * 4) by reflexivity. rewrite <- !Z.div_div by lia.
  assert (A : d / 1460 <= (d + 1) / 1460 <= d / 1460 + 1).
  { split; [apply Z.div_le_mono; lia|]. replace (d / 1460 + 1) with ((d + 1 * 1460) / 1460) by (rewrite Z.div_add; lia). apply Z.div_le_mono; lia. }
  assert (B : d / 36524 <= (d + 1) / 36524) by (apply Z.div_le_mono; lia).
  set (a := d / 36524) in *. set (b := (d + 1) / 36524) in *.
  assert (b / 4 - a / 4 <= b - a) by (Z.div_mod_to_equations; lia). lia.
Qed.
Lemma pre_mono d n : 0 <= d -> 0 <= n -> pre d <= pre (d + n).
Proof.
  intros Hd Hn. pattern n. apply natlike_ind; auto; [rewrite Z.add_0_r; lia|].
  intros x Hx IH. unfold Z.succ. rewrite Z.add_assoc. pose proof (pre_step (d + x) ltac:(lia)). lia.
Qed.

Definition ys (y : Z) : Z := 365 * y + y / 4 - y / 100.
Definition yl (y : Z) : Z := 365 + (if leap (y + 1) then 1 else 0).
Definition yrow (y : Z) : bool :=
  (pre (ys y) / 365 =? y) && (pre (ys y + yl y - 1) / 365 =? y) &&
  (if y <? 399 then ys (y + 1) =? ys y + yl y else ys y + yl y =? 146097).
Lemma ytable : chk yrow 400 0 = true.
Proof. vm_compute. reflexivity. Qed.
Lemma yrow_at y : 0 <= y < 400 -> pre (ys y) / 365 = y /\ pre (ys y + yl y - 1) / 365 = y /\
  (y < 399 -> ys (y + 1) = ys y + yl y) /\ (y = 399 -> ys y + yl y = 146097).
Proof.
  intros Hy. pose proof (chk_spec _ _ _ ytable y ltac:(lia)) as T. unfold yrow in T.
  apply andb_true_iff in T as [T T3]. apply andb_true_iff in T as [T1 T2]. apply Z.eqb_eq in T1, T2.
  split; [auto|]. split; [auto|]. destruct (Z.ltb_spec y 399); apply Z.eqb_eq in T3; split; intros; lia.
Qed.
Lemma yl_bound y : 365 <= yl y <= 366.
Proof. unfold yl. destruct (leap (y + 1)); lia. Qed.
Lemma ys_nonneg y : 0 <= y -> 0 <= ys y.
Proof. intros. unfold ys. Z.div_mod_to_equations. lia. Qed.
(* the year of a day *)
Lemma year_squeeze y doy : 0 <= y < 400 -> 0 <= doy < yl y -> pre (ys y + doy) / 365 = y.
Proof.
  intros Hy Hd. destruct (yrow_at y Hy) as (A & B & _). pose proof (ys_nonneg y ltac:(lia)).
  pose proof (pre_mono (ys y) doy ltac:(lia) ltac:(lia)) as M1.
  pose proof (pre_mono (ys y + doy) (yl y - 1 - doy) ltac:(lia) ltac:(lia)) as M2.
  replace (ys y + doy + (yl y - 1 - doy)) with (ys y + yl y - 1) in M2 by lia.
  assert (pre (ys y) / 365 <= pre (ys y + doy) / 365) by (apply Z.div_le_mono; lia).
  assert (pre (ys y + doy) / 365 <= pre (ys y + yl y - 1) / 365) by (apply Z.div_le_mono; lia). lia.
Qed.
Lemma year_exists doe : 0 <= doe < 146097 -> exists y doy, 0 <= y < 400 /\ 0 <= doy < yl y /\ doe = ys y + doy.
Proof.
  intros Hd.
  assert (K : forall n, (n < 400)%nat -> doe < ys (Z.of_nat n) + yl (Z.of_nat n) ->
     exists y doy, 0 <= y < 400 /\ 0 <= doy < yl y /\ doe = ys y + doy).
  { induction n as [|n IH]; intros Hn Hl.
    - change (Z.of_nat 0) with 0 in *. exists 0, doe. change (ys 0) with 0 in *. split; [lia|]. split; lia.
    - destruct (Z.lt_ge_cases doe (ys (Z.of_nat (S n)))) as [L|L].
      + apply IH; [lia|]. destruct (yrow_at (Z.of_nat n) ltac:(lia)) as (_ & _ & E & _). rewrite <- E by lia.
        replace (Z.of_nat n + 1) with (Z.of_nat (S n)) by lia. auto.
      + exists (Z.of_nat (S n)), (doe - ys (Z.of_nat (S n))). split; [lia|]. split; lia. }
  apply (K 399%nat); [lia|]. destruct (yrow_at 399 ltac:(lia)) as (_ & _ & _ & E). change (Z.of_nat 399) with 399. rewrite E; lia.
Qed.

(* months: m counted from March (0) to February (11) *)
Definition mon_of (mp : Z) : Z := if mp <? 10 then mp + 3 else mp - 9.
Definition len_of (b : bool) (m : Z) : Z := if m =? 2 then (if b then 29 else 28) else month_len 1 m.
Lemma month_len_of y m : month_len y m = len_of (leap y) m.
Proof.
  unfold len_of. destruct (Z.eqb_spec m 2) as [->|H]; [reflexivity|]. unfold month_len.
  destruct m as [|p|p]; try reflexivity. do 4 (try (destruct p as [p|p|]; try reflexivity)). contradiction.
Qed.
Definition drow (b : bool) (doy : Z) : bool :=
  let mp := (5 * doy + 2) / 153 in
  let day := doy - (153 * mp + 2) / 5 + 1 in
  (0 <=? mp) && (mp <? 12) && (1 <=? day) && ((365 + (if b then 1 else 0) <=? doy) || (day <=? len_of b (mon_of mp))).
Lemma dtable : chk (drow true) 366 0 && chk (drow false) 366 0 = true.
Proof. vm_compute. reflexivity. Qed.
Lemma drow_at b doy : 0 <= doy < 366 -> drow b doy = true.
Proof.
  intros H. pose proof dtable as T. apply andb_true_iff in T as [T1 T2].
  destruct b; [apply (chk_spec _ _ _ T1)|apply (chk_spec _ _ _ T2)]; lia.
Qed.
Definition mrow (b : bool) (k : Z) : bool :=
  let mp := k / 31 in let day := k mod 31 + 1 in
  let doy := (153 * mp + 2) / 5 + day - 1 in
  (len_of b (mon_of mp) <? day) ||
  ((0 <=? doy) && (doy <? 365 + (if b then 1 else 0)) && ((5 * doy + 2) / 153 =? mp)).
Lemma mtable : chk (mrow true) 372 0 && chk (mrow false) 372 0 = true.
Proof. vm_compute. reflexivity. Qed.
Lemma mrow_at b k : 0 <= k < 372 -> mrow b k = true.
Proof.
  intros H. pose proof mtable as T. apply andb_true_iff in T as [T1 T2].
  destruct b; [apply (chk_spec _ _ _ T1)|apply (chk_spec _ _ _ T2)]; lia.
Qed.

Definition era_ok (doe : Z) : bool :=
  let yoe := (doe - doe / 1460 + doe / 36524 - doe / 146096) / 365 in
  let doy := doe - (365 * yoe + yoe / 4 - yoe / 100) in
  let mp := (5 * doy + 2) / 153 in
  let day := doy - (153 * mp + 2) / 5 + 1 in
  let month := if mp <? 10 then mp + 3 else mp - 9 in
  (0 <=? yoe) && (yoe <? 400) && (0 <=? doy) && (doy <? 366) && (0 <=? mp) && (mp <? 12)
  && (1 <=? day) && (day <=? month_len (yoe + (if month <=? 2 then 1 else 0)) month)
  && (0 <=? doe - doe / 1460 + doe / 36524 - doe / 146096)
  && (365 * yoe + yoe / 4 - yoe / 100 + ((153 * (if 2 <? month then month - 3 else month + 9) + 2) / 5 + day - 1) =? doe).
Lemma era_table doe : 0 <= doe < 146097 -> era_ok doe = true.
Proof.
  intros Hd. destruct (year_exists doe Hd) as (y & doy & Hy & Hdoy & E).
  pose proof (year_squeeze y doy Hy Hdoy) as Q. rewrite <- E in Q.
  assert (P0 : 0 <= pre doe).
  { pose proof (pre_mono 0 doe ltac:(lia) ltac:(lia)). change (pre 0) with 0 in *. auto. }
  unfold era_ok. fold (pre doe). rewrite Q. fold (ys y).
  replace (doe - ys y) with doy by lia.
  pose proof (yl_bound y). pose proof (drow_at (leap (y + 1)) doy ltac:(lia)) as T. unfold drow in T.
  fold (mon_of ((5 * doy + 2) / 153)).
  set (mp := (5 * doy + 2) / 153) in *. set (day := doy - (153 * mp + 2) / 5 + 1) in *.
  apply andb_true_iff in T as [T T4]. apply andb_true_iff in T as [T T3]. apply andb_true_iff in T as [T1 T2].
  apply Z.leb_le in T1, T3. apply Z.ltb_lt in T2.
  assert (L : day <= len_of (leap (y + 1)) (mon_of mp)).
  { apply orb_true_iff in T4 as [T4|T4]; apply Z.leb_le in T4; [|auto]. unfold yl in Hdoy. lia. }
  assert (ML : month_len (y + (if mon_of mp <=? 2 then 1 else 0)) (mon_of mp) = len_of (leap (y + 1)) (mon_of mp)).
  { destruct (Z.leb_spec (mon_of mp) 2); [apply month_len_of|]. rewrite month_len_of. unfold len_of.
    destruct (Z.eqb_spec (mon_of mp) 2); [lia|reflexivity]. }
  assert (K : (if 2 <? mon_of mp then mon_of mp - 3 else mon_of mp + 9) = mp).
  { unfold mon_of. destruct (Z.ltb_spec mp 10).
    - destruct (Z.ltb_spec 2 (mp + 3)); lia.
    - destruct (Z.ltb_spec 2 (mp - 9)); lia. }
  rewrite ML, K.
  repeat (apply andb_true_iff; split); try (apply Z.leb_le); try (apply Z.ltb_lt); try (apply Z.eqb_eq); auto; try lia.
Qed.

Definition date_ok (k : Z) : bool :=
  let yoe := k / 372 in let mp := k mod 372 / 31 in let day := k mod 31 + 1 in
  let month := if mp <? 10 then mp + 3 else mp - 9 in
  if month_len (yoe + (if month <=? 2 then 1 else 0)) month <? day then true
  else
    let doe := 365 * yoe + yoe / 4 - yoe / 100 + ((153 * mp + 2) / 5 + day - 1) in
    (0 <=? doe) && (doe <? 146097) &&
    let '(y, m, d) := civ (doe - 719468) in
    (y =? yoe + (if month <=? 2 then 1 else 0)) && (m =? month) && (d =? day).
Lemma date_table k : 0 <= k < 148800 -> date_ok k = true.
Proof.
  intros Hk. unfold date_ok.
  assert (Hy : 0 <= k / 372 < 400) by (split; [apply Z.div_pos; lia|apply Z.div_lt_upper_bound; lia]).
  assert (Hr : 0 <= k mod 372 < 372) by (apply Z.mod_pos_bound; lia).
  assert (E31 : k mod 31 = (k mod 372) mod 31).
  { pose proof (Z.div_mod k 372 ltac:(lia)) as E. rewrite E at 1. replace (372 * (k / 372)) with (12 * (k / 372) * 31) by lia.
    rewrite Z.add_comm, Z.mod_add by lia. reflexivity. }
  rewrite E31. set (y := k / 372) in *. set (r := k mod 372) in *.
  assert (Hmp : 0 <= r / 31 < 12) by (split; [apply Z.div_pos; lia|apply Z.div_lt_upper_bound; lia]).
  pose proof (mrow_at (leap (y + 1)) r Hr) as T. unfold mrow in T.
  set (mp := r / 31) in *. set (day := r mod 31 + 1) in *. fold (mon_of mp).
  assert (ML : month_len (y + (if mon_of mp <=? 2 then 1 else 0)) (mon_of mp) = len_of (leap (y + 1)) (mon_of mp)).
  { destruct (Z.leb_spec (mon_of mp) 2); [apply month_len_of|]. rewrite month_len_of. unfold len_of.
    destruct (Z.eqb_spec (mon_of mp) 2); [lia|reflexivity]. }
  rewrite ML. destruct (len_of (leap (y + 1)) (mon_of mp) <? day); [reflexivity|]. cbn [orb] in T.
  fold (ys y). set (doy := (153 * mp + 2) / 5 + day - 1) in *.
  apply andb_true_iff in T as [T T3]. apply andb_true_iff in T as [T1 T2].
  apply Z.leb_le in T1. apply Z.ltb_lt in T2. apply Z.eqb_eq in T3. fold (yl y) in T2.
  pose proof (ys_nonneg y ltac:(lia)).
  assert (Hlt : ys y + doy < 146097).
  { clear - T1 T2 Hy.
    assert (M : forall n, (n <= 399)%nat -> ys (399 - Z.of_nat n) + yl (399 - Z.of_nat n) <= 146097).
    { induction n as [|n IH]; intros Hn.
      - change (399 - Z.of_nat 0) with 399. destruct (yrow_at 399 ltac:(lia)) as (_ & _ & _ & E). rewrite E; lia.
      - destruct (yrow_at (399 - Z.of_nat (S n)) ltac:(lia)) as (_ & _ & E & _). rewrite <- E by lia.
        replace (399 - Z.of_nat (S n) + 1) with (399 - Z.of_nat n) by lia.
        pose proof (yl_bound (399 - Z.of_nat n)). specialize (IH ltac:(lia)). lia. }
    specialize (M (Z.to_nat (399 - y)) ltac:(lia)). replace (399 - Z.of_nat (Z.to_nat (399 - y))) with y in M by lia. lia. }
  apply andb_true_iff; split; [apply andb_true_iff; split; [apply Z.leb_le; lia|apply Z.ltb_lt; auto]|].
  unfold civ. replace (ys y + doy - 719468 + 719468) with (ys y + doy) by lia.
  rewrite (Z.div_small (ys y + doy) 146097), (Z.mod_small (ys y + doy)) by lia. fold (pre (ys y + doy)). rewrite year_squeeze by lia. fold (ys y).
  replace (ys y + doy - ys y) with doy by lia. rewrite T3. fold (mon_of mp).
  replace (doy - (153 * mp + 2) / 5 + 1) with day by (subst doy; lia).
  rewrite !Z.eqb_refl, !andb_true_r. apply Z.eqb_eq. lia.
Qed.
