(* Prepared statement parameters and the login packet. *)
From Coq Require Import ZArith List Bool Lia.
From Verif Require Import Common.Bytes Date.Model Date.Spec Date.Reading Date.ProofsCal Date.ProofsTime Date.ProofsPack Date.ProofsDur
  Proto.Spec Proto.Model Proto.Reading Proto.ProofsText.
Import ListNotations.
Local Open Scope Z_scope.

(* ---- flags ---- *)
Lemma flag_byte_bit fs : forall k, Z.testbit (flag_byte fs) (Z.of_nat k) = nth k fs false.
Proof.
  induction fs as [|b fs IH]; intros k; cbn [flag_byte].
  { rewrite Z.testbit_0_l. destruct k; reflexivity. }
  replace ((if b then 1 else 0) + 2 * flag_byte fs) with (2 * flag_byte fs + Z.b2z b) by (destruct b; cbn [Z.b2z]; lia).
  destruct k as [|k].
  - cbn [nth]. apply Z.testbit_0_r.
  - rewrite Nat2Z.inj_succ, Z.testbit_succ_r by lia. cbn [nth]. apply IH.
Qed.
Lemma skipn_nth_f {A} n : forall (l : list A) k d, nth k (skipn n l) d = nth (n + k) l d.
Proof. induction n as [|n IH]; intros l k d; [reflexivity|]. destruct l; cbn [skipn Nat.add nth]; [destruct k; reflexivity|apply IH]. Qed.
Lemma firstn_nth_f {A} n : forall (l : list A) k d, (k < n)%nat -> nth k (firstn n l) d = nth k l d.
Proof. induction n as [|n IH]; intros l k d H; [lia|]. destruct l as [|x l]; [reflexivity|]. destruct k; cbn [firstn nth]; [reflexivity|apply IH; lia]. Qed.

Lemma bitmap_bit fuel : forall fs i, (length fs <= fuel)%nat -> (i < length fs)%nat ->
  (i / 8 < length (bitmap fuel fs))%nat /\ Z.testbit (nth (i / 8) (bitmap fuel fs) 0) (Z.of_nat (i mod 8)) = nth i fs false.
Proof.
  induction fuel as [|f IH]; intros fs i L H; [lia|]. cbn [bitmap]. destruct fs as [|b fs0]; [cbn in H; lia|]. set (fs := b :: fs0) in *.
  pose proof (Nat.div_mod i 8 ltac:(lia)) as D. pose proof (Nat.mod_upper_bound i 8 ltac:(lia)) as M.
  destruct (i / 8)%nat as [|q] eqn:Eq.
  - split; [cbn [length]; lia|]. cbn [nth]. rewrite flag_byte_bit, firstn_nth_f by lia. f_equal. lia.
  - assert (Ei : i = (8 + (i - 8))%nat) by lia.
    assert (Q : ((i - 8) / 8 = q)%nat) by (symmetry; apply Nat.div_unique with (i mod 8)%nat; lia).
    assert (R : ((i - 8) mod 8 = i mod 8)%nat) by (symmetry; apply Nat.mod_unique with q; lia).
    destruct (IH (skipn 8 fs) (i - 8)%nat) as [I1 I2].
    { rewrite skipn_length. cbn [length] in *. lia. } { rewrite skipn_length. lia. }
    rewrite Q in I1, I2. rewrite R in I2. split; [cbn [length]; lia|]. cbn [nth]. rewrite I2, skipn_nth_f. f_equal. lia.
Qed.
Lemma bitmap_length fuel : forall fs, (length fs <= fuel)%nat -> length (bitmap fuel fs) = ((length fs + 7) / 8)%nat.
Proof.
  induction fuel as [|f IH]; intros fs L. { destruct fs; [reflexivity|cbn in L; lia]. }
  cbn [bitmap]. destruct fs as [|b fs0]; [reflexivity|]. set (fs := b :: fs0) in *. cbn [length].
  rewrite IH by (rewrite skipn_length; cbn [length] in *; lia). rewrite skipn_length.
  destruct (Nat.le_gt_cases 8 (length fs)) as [G|G].
  - replace (length fs + 7)%nat with ((length fs - 8 + 7) + 1 * 8)%nat by lia. rewrite Nat.div_add by lia. lia.
  - replace (length fs - 8)%nat with 0%nat by lia. change ((0 + 7) / 8)%nat with 0%nat.
    apply Nat.div_unique with (length fs - 1)%nat; unfold fs in *; cbn [length] in *; lia.
Qed.
Lemma is_null_bit nb k : negb (Z.land (Z.shiftr nb (Z.of_nat k)) 1 =? 0) = Z.testbit nb (Z.of_nat k).
Proof.
  rewrite Z.testbit_odd. change 1 with (Z.ones 1) at 1. rewrite Z.land_ones by lia. change (2 ^ 1) with 2.
  rewrite Zmod_odd. destruct (Z.odd (Z.shiftr nb (Z.of_nat k))); reflexivity.
Qed.

(* ---- reading what is there ---- *)
Section At.
  Variable data : list Z.
  Variable plen : nat.
  Hypothesis plen_small : Z.of_nat plen < 2 ^ 32.

  Definition at_ (off : nat) (xs : list Z) : Prop :=
    (off + length xs <= plen)%nat /\ exists pre post, data = pre ++ xs ++ post /\ length pre = off.

  Lemma at_app off a b : at_ off (a ++ b) -> at_ off a /\ at_ (off + length a) b.
  Proof.
    intros (L&pre&post&E&P). rewrite app_length in L. split; (split; [lia|]).
    - exists pre, (b ++ post). rewrite E, <- app_assoc. auto.
    - exists (pre ++ a), post. rewrite E, <- !app_assoc, app_length. auto.
  Qed.
  Lemma at_load off x t : at_ off (x :: t) -> load data off = Ok x.
  Proof.
    intros (L&pre&post&E&P). unfold load. rewrite E, nth_error_app2 by lia. rewrite P, Nat.sub_diag. reflexivity.
  Qed.
  Lemma at_char off x t : at_ off (x :: t) -> get_char data plen off = Ok (x, S off).
  Proof.
    intros H. unfold get_char. pose proof H as (L&_). cbn [length] in L. destruct (Nat.ltb_spec plen (off + 1)); [lia|].
    rewrite (at_load off x t H). reflexivity.
  Qed.
  Lemma at_sum n : forall off v, at_ off (le_bytes n v) -> sum_bytes data n off = Ok (v mod 256 ^ Z.of_nat n).
  Proof.
    induction n as [|n IH]; intros off v H; cbn [sum_bytes le_bytes] in *.
    { change (256 ^ Z.of_nat 0) with 1. rewrite Z.mod_1_r. reflexivity. }
    rewrite (at_load _ _ _ H). cbn [bind]. change (v mod 256 :: le_bytes n (v / 256)) with ([v mod 256] ++ le_bytes n (v / 256)) in H.
    apply at_app in H as [_ H]. cbn [length] in H. rewrite Nat.add_1_r in H. rewrite (IH _ _ H). cbn [bind]. f_equal.
    rewrite Nat2Z.inj_succ, Z.pow_succ_r by lia. rewrite Z.rem_mul_r by lia. lia.
  Qed.
  Lemma at_fixed n off v : at_ off (le_bytes n v) -> get_fixed_int data plen n off = Ok (v mod 256 ^ Z.of_nat n, (off + n)%nat).
  Proof.
    intros H. unfold get_fixed_int. pose proof H as (L&_). rewrite le_bytes_length in L. destruct (Nat.ltb_spec plen (off + n)); [lia|].
    rewrite (at_sum _ _ _ H). reflexivity.
  Qed.
  Lemma at_one off x t : 0 <= x < 256 -> at_ off (x :: t) -> get_fixed_int data plen 1 off = Ok (x, S off).
  Proof.
    intros Hx H. change (x :: t) with ([x] ++ t) in H. apply at_app in H as [H _]. 
    assert (E : [x] = le_bytes 1 x) by (cbn [le_bytes]; rewrite Z.mod_small by lia; reflexivity). rewrite E in H.
    rewrite (at_fixed 1 off x H). change (256 ^ Z.of_nat 1) with 256. rewrite Z.mod_small by lia. rewrite Nat.add_1_r. reflexivity.
  Qed.
  Lemma at_lenenc off n : 0 <= n < 2 ^ 64 -> at_ off (lenenc n) ->
    get_length_coded_int data plen off = Ok (Some n, (off + length (lenenc n))%nat).
  Proof.
    intros Hn H. unfold get_length_coded_int, lenenc in *. destruct (Z.leb_spec n 250) as [L|L].
    { pose proof H as (Lp&_). cbn [length] in *. destruct (Nat.ltb_spec plen (off + 1)); [lia|]. rewrite (at_load _ _ _ H). cbn [bind].
      destruct (Z.ltb_spec 254 n); [lia|]. destruct (Z.eqb_spec n 251); [lia|]. destruct (Z.leb_spec n 250); [|lia]. rewrite Nat.add_1_r. reflexivity. }
    assert (Big : forall b w, (b = 252 \/ b = 253 \/ b = 254) -> at_ off (b :: le_bytes w n) -> n < 256 ^ Z.of_nat w ->
      w = (if (b =? 252)%Z then 2 else if (b =? 253)%Z then 3 else 8)%nat ->
      (if (plen <? off + 1)%nat then Err else bind (load data off) (fun b0 =>
        if 254 <? b0 then Err else if b0 =? 251 then Ok (None, S off) else if b0 <=? 250 then Ok (Some b0, S off)
        else bind (get_fixed_int data plen (if b0 =? 252 then 2%nat else if b0 =? 253 then 3%nat else 8%nat) (S off)) (fun r => Ok (Some (fst r), snd r))))
      = Ok (Some n, (off + length (b :: le_bytes w n))%nat)).
    { intros b w Hb Ha Hw Ew. pose proof Ha as (Lp&_). cbn [length] in *. rewrite le_bytes_length in *. destruct (Nat.ltb_spec plen (off + 1)); [lia|].
      rewrite (at_load _ _ _ Ha). cbn [bind]. destruct (Z.ltb_spec 254 b); [lia|]. destruct (Z.eqb_spec b 251); [lia|]. destruct (Z.leb_spec b 250); [lia|].
      rewrite <- Ew. change (b :: le_bytes w n) with ([b] ++ le_bytes w n) in Ha. apply at_app in Ha as [_ Ha]. cbn [length] in Ha. rewrite Nat.add_1_r in Ha.
      rewrite (at_fixed _ _ _ Ha). cbn [bind fst snd]. rewrite Z.mod_small by lia. do 2 f_equal. lia. }
    destruct (Z.ltb_spec n 0x10000) as [L2|L2]; [apply Big; [auto|exact H|exact L2|reflexivity]|].
    destruct (Z.ltb_spec n 0x1000000) as [L3|L3]; [apply Big; [auto|exact H|exact L3|reflexivity]|].
    apply Big; [auto|exact H|change (256 ^ Z.of_nat 8) with (2 ^ 64); lia|reflexivity].
  Qed.
  Lemma at_text off xs : at_ off xs -> firstn (length xs) (skipn off data) = xs /\ (off + length xs <= length data)%nat.
  Proof.
    intros (_&pre&post&E&P). rewrite E. split.
    - rewrite skipn_app. rewrite skipn_all2 by lia. rewrite P, Nat.sub_diag. cbn [app skipn].
      rewrite firstn_app, firstn_all, Nat.sub_diag, firstn_O, app_nil_r. reflexivity.
    - rewrite !app_length. lia.
  Qed.

  Lemma at_date off f : at_ off (date_bytes (f_year f) (f_month f) (f_day f) (f_hour f) (f_minute f) (f_second f) (f_micro f)) ->
    0 <= f_year f < 65536 -> 0 <= f_month f < 256 -> 0 <= f_day f < 256 -> 0 <= f_hour f < 256 ->
    0 <= f_minute f < 256 -> 0 <= f_second f < 256 -> 0 <= f_micro f < 2 ^ 32 ->
    get_date_fields data plen off = Ok (f, (off + length (date_bytes (f_year f) (f_month f) (f_day f) (f_hour f) (f_minute f) (f_second f) (f_micro f)))%nat).
  Proof.
    destruct f as [y mo d h mi s us]. cbn [f_year f_month f_day f_hour f_minute f_second f_micro]. intros H Hy Hmo Hd Hh Hmi Hs Hus.
    unfold get_date_fields, date_bytes in *.
    destruct ((y =? 0) && (mo =? 0) && (d =? 0) && (h =? 0) && (mi =? 0) && (s =? 0) && (us =? 0)) eqn:E0.
    { repeat rewrite andb_true_iff in E0. rewrite !Z.eqb_eq in E0. destruct E0 as ((((((->&->)&->)&->)&->)&->)&->).
      rewrite (at_one off 0 [] ltac:(lia) H). cbn [bind fst snd]. change ((0 =? 4) || (0 =? 7) || (0 =? 11)) with false. cbn [Z.eqb]. cbn [length]. rewrite Nat.add_1_r. reflexivity. }
    assert (Y : forall n t, at_ off (n :: le_bytes 2 y ++ mo :: d :: t) -> 0 <= n < 256 ->
       get_fixed_int data plen 1 off = Ok (n, S off) /\ get_fixed_int data plen 2 (S off) = Ok (y, (S off + 2)%nat) /\
       get_fixed_int data plen 1 (S off + 2) = Ok (mo, S (S off + 2)) /\ get_fixed_int data plen 1 (S (S off + 2)) = Ok (d, S (S (S off + 2))) /\
       at_ (S (S (S off + 2))) t).
    { intros n t Ha Hn. split; [eapply at_one; [exact Hn|exact Ha]|].
      change (n :: le_bytes 2 y ++ mo :: d :: t) with ([n] ++ le_bytes 2 y ++ mo :: d :: t) in Ha. apply at_app in Ha as [_ Ha]. cbn [length] in Ha. rewrite Nat.add_1_r in Ha.
      apply at_app in Ha as [H2 Ha]. rewrite le_bytes_length in Ha.
      split. { rewrite (at_fixed _ _ _ H2). rewrite Z.mod_small by (change (256 ^ Z.of_nat 2) with 65536; lia). reflexivity. }
      split; [eapply at_one; [lia|exact Ha]|]. change (mo :: d :: t) with ([mo] ++ d :: t) in Ha. apply at_app in Ha as [_ Ha]. cbn [length] in Ha. rewrite Nat.add_1_r in Ha.
      split; [eapply at_one; [lia|exact Ha]|]. change (d :: t) with ([d] ++ t) in Ha. apply at_app in Ha as [_ Ha]. cbn [length] in Ha. rewrite Nat.add_1_r in Ha. exact Ha. }
    assert (T : forall o t, at_ o (h :: mi :: s :: t) -> get_fixed_int data plen 1 o = Ok (h, S o) /\ get_fixed_int data plen 1 (S o) = Ok (mi, S (S o)) /\
       get_fixed_int data plen 1 (S (S o)) = Ok (s, S (S (S o))) /\ at_ (S (S (S o))) t).
    { intros o t Ha. split; [eapply at_one; [lia|exact Ha]|]. change (h :: mi :: s :: t) with ([h] ++ mi :: s :: t) in Ha. apply at_app in Ha as [_ Ha]. cbn [length] in Ha. rewrite Nat.add_1_r in Ha.
      split; [eapply at_one; [lia|exact Ha]|]. change (mi :: s :: t) with ([mi] ++ s :: t) in Ha. apply at_app in Ha as [_ Ha]. cbn [length] in Ha. rewrite Nat.add_1_r in Ha.
      split; [eapply at_one; [lia|exact Ha]|]. change (s :: t) with ([s] ++ t) in Ha. apply at_app in Ha as [_ Ha]. cbn [length] in Ha. rewrite Nat.add_1_r in Ha. exact Ha. }
    destruct ((h =? 0) && (mi =? 0) && (s =? 0) && (us =? 0)) eqn:E1.
    { repeat rewrite andb_true_iff in E1. rewrite !Z.eqb_eq in E1. destruct E1 as (((->&->)&->)&->).
      destruct (Y 4 [] H ltac:(lia)) as (Y1&Y2&Y3&Y4&_). rewrite Y1. cbn [bind fst snd]. change ((4 =? 4) || (4 =? 7) || (4 =? 11)) with true. cbv iota.
      rewrite Y2. cbn [bind fst snd]. rewrite Y3. cbn [bind fst snd]. rewrite Y4. cbn [bind fst snd]. change ((4 =? 7) || (4 =? 11)) with false. cbv iota. cbn [bind].
      change (4 =? 11) with false. cbv iota. cbn [bind fst snd]. do 2 f_equal. cbn [length]. rewrite app_length, le_bytes_length. cbn [length]. lia. }
    assert (Cus : us = 0 \/ us <> 0) by lia. destruct Cus as [Eus|Nus].
    - rewrite (proj2 (Z.eqb_eq us 0) Eus) in H |- *. subst us. destruct (Y 7 [h; mi; s] H ltac:(lia)) as (Y1&Y2&Y3&Y4&Y5). rewrite Y1. cbn [bind fst snd]. change ((7 =? 4) || (7 =? 7) || (7 =? 11)) with true. cbv iota.
      rewrite Y2. cbn [bind fst snd]. rewrite Y3. cbn [bind fst snd]. rewrite Y4. cbn [bind fst snd]. change ((7 =? 7) || (7 =? 11)) with true. cbv iota.
      destruct (T _ _ Y5) as (T1&T2&T3&_). rewrite T1. cbn [bind fst snd]. rewrite T2. cbn [bind fst snd]. rewrite T3. cbn [bind fst snd].
      change (7 =? 11) with false. cbv iota. cbn [bind fst snd]. do 2 f_equal. cbn [length]. rewrite app_length, le_bytes_length. cbn [length]. lia.
    - rewrite (proj2 (Z.eqb_neq us 0) Nus) in H |- *. destruct (Y 11 ([h; mi; s] ++ le_bytes 4 us)) as (Y1&Y2&Y3&Y4&Y5); [exact H|lia|]. rewrite Y1. cbn [bind fst snd]. change ((11 =? 4) || (11 =? 7) || (11 =? 11)) with true. cbv iota.
      rewrite Y2. cbn [bind fst snd]. rewrite Y3. cbn [bind fst snd]. rewrite Y4. cbn [bind fst snd]. change ((11 =? 7) || (11 =? 11)) with true. cbv iota.
      destruct (T _ _ Y5) as (T1&T2&T3&T4). rewrite T1. cbn [bind fst snd]. rewrite T2. cbn [bind fst snd]. rewrite T3. cbn [bind fst snd].
      change (11 =? 11) with true. cbv iota. rewrite (at_fixed _ _ _ T4). cbn [bind fst snd]. rewrite Z.mod_small by (change (256 ^ Z.of_nat 4) with (2 ^ 32); lia).
      do 2 f_equal. cbn [length]. rewrite app_length, le_bytes_length. cbn [length app]. rewrite le_bytes_length. lia.
  Qed.

  Lemma at_time off neg d h mi s us : at_ off (time_bytes neg d h mi s us) ->
    0 <= d < 2 ^ 32 -> 0 <= h < 256 -> 0 <= mi < 256 -> 0 <= s < 256 -> 0 <= us < 2 ^ 32 -> 0 < d + h + mi + s + us ->
    get_time_value data plen off = Ok (bin_time_to_datetime d h mi s neg, (off + length (time_bytes neg d h mi s us))%nat).
  Proof.
    intros H Hd Hh Hmi Hs Hus Nz. unfold get_time_value, time_bytes in *.
    destruct ((d =? 0) && (h =? 0) && (mi =? 0) && (s =? 0) && (us =? 0)) eqn:E0.
    { repeat rewrite andb_true_iff in E0. rewrite !Z.eqb_eq in E0. lia. }
    set (ng := if neg then 1 else 0) in *. assert (Hng : 0 <= ng < 256) by (unfold ng; destruct neg; lia).
    assert (En : negb (ng =? 0) = neg) by (unfold ng; destruct neg; reflexivity).
    assert (Y : forall n t, at_ off (n :: ng :: le_bytes 4 d ++ h :: mi :: s :: t) -> 0 <= n < 256 ->
       get_fixed_int data plen 1 off = Ok (n, S off) /\ get_fixed_int data plen 1 (S off) = Ok (ng, S (S off)) /\
       get_fixed_int data plen 4 (S (S off)) = Ok (d, (S (S off) + 4)%nat) /\ get_fixed_int data plen 1 (S (S off) + 4) = Ok (h, S (S (S off) + 4)) /\
       get_fixed_int data plen 1 (S (S (S off) + 4)) = Ok (mi, S (S (S (S off) + 4))) /\
       get_fixed_int data plen 1 (S (S (S (S off) + 4))) = Ok (s, S (S (S (S (S off) + 4)))) /\ at_ (S (S (S (S (S off) + 4)))) t).
    { intros n t Ha Hn. split; [eapply at_one; [exact Hn|exact Ha]|].
      change (n :: ng :: le_bytes 4 d ++ h :: mi :: s :: t) with ([n] ++ ng :: le_bytes 4 d ++ h :: mi :: s :: t) in Ha. apply at_app in Ha as [_ Ha]. cbn [length] in Ha. rewrite Nat.add_1_r in Ha.
      split; [eapply at_one; [lia|exact Ha]|].
      change (ng :: le_bytes 4 d ++ h :: mi :: s :: t) with ([ng] ++ le_bytes 4 d ++ h :: mi :: s :: t) in Ha. apply at_app in Ha as [_ Ha]. cbn [length] in Ha. rewrite Nat.add_1_r in Ha.
      apply at_app in Ha as [H2 Ha]. rewrite le_bytes_length in Ha.
      split. { rewrite (at_fixed _ _ _ H2). rewrite Z.mod_small by (change (256 ^ Z.of_nat 4) with (2 ^ 32); lia). reflexivity. }
      split; [eapply at_one; [lia|exact Ha]|]. change (h :: mi :: s :: t) with ([h] ++ mi :: s :: t) in Ha. apply at_app in Ha as [_ Ha]. cbn [length] in Ha. rewrite Nat.add_1_r in Ha.
      split; [eapply at_one; [lia|exact Ha]|]. change (mi :: s :: t) with ([mi] ++ s :: t) in Ha. apply at_app in Ha as [_ Ha]. cbn [length] in Ha. rewrite Nat.add_1_r in Ha.
      split; [eapply at_one; [lia|exact Ha]|]. change (s :: t) with ([s] ++ t) in Ha. apply at_app in Ha as [_ Ha]. cbn [length] in Ha. rewrite Nat.add_1_r in Ha. exact Ha. }
    assert (Cus : us = 0 \/ us <> 0) by lia. destruct Cus as [Eus|Nus].
    - rewrite (proj2 (Z.eqb_eq us 0) Eus) in H |- *. subst us. destruct (Y 8 [] H ltac:(lia)) as (Y1&Y2&Y3&Y4&Y5&Y6&_). rewrite Y1. cbn [bind fst snd]. rewrite Y2. cbn [bind fst snd].
      change ((8 =? 8) || (8 =? 12)) with true. cbv iota. rewrite Y3. cbn [bind fst snd]. rewrite Y4. cbn [bind fst snd]. rewrite Y5. cbn [bind fst snd]. rewrite Y6. cbn [bind fst snd].
      change (8 =? 12) with false. cbv iota. cbn [bind fst snd]. rewrite En. do 2 f_equal. cbn [length]. rewrite app_length, le_bytes_length. cbn [length]. lia.
    - rewrite (proj2 (Z.eqb_neq us 0) Nus) in H |- *. destruct (Y 12 (le_bytes 4 us) H ltac:(lia)) as (Y1&Y2&Y3&Y4&Y5&Y6&Y7). rewrite Y1. cbn [bind fst snd]. rewrite Y2. cbn [bind fst snd].
      change ((12 =? 8) || (12 =? 12)) with true. cbv iota. rewrite Y3. cbn [bind fst snd]. rewrite Y4. cbn [bind fst snd]. rewrite Y5. cbn [bind fst snd]. rewrite Y6. cbn [bind fst snd].
      change (12 =? 12) with true. cbv iota. rewrite (at_fixed _ _ _ Y7). cbn [bind fst snd]. rewrite En. do 2 f_equal. cbn [length]. rewrite app_length, le_bytes_length. cbn [length app]. rewrite le_bytes_length. lia.
  Qed.

  Lemma as_int_ok (u : bool) w v : (0 < w)%nat ->
    (if u then 0 <= v < 256 ^ Z.of_nat w else - (256 ^ Z.of_nat w / 2) <= v < 256 ^ Z.of_nat w / 2) ->
    as_int (negb u) w (v mod 256 ^ Z.of_nat w) = v.
  Proof.
    intros Hw H. unfold as_int. rewrite Z.pow_mul_r by lia. change (2 ^ 8) with 256. set (m := 256 ^ Z.of_nat w) in *.
    assert (Em : exists k, m = 2 * k /\ 0 < k).
    { destruct w as [|w]; [lia|]. unfold m. exists (128 * 256 ^ Z.of_nat w). rewrite Nat2Z.inj_succ, Z.pow_succ_r by lia.
      assert (0 < 256 ^ Z.of_nat w) by (apply Z.pow_pos_nonneg; lia). lia. }
    destruct Em as (k&Em&Hk). clearbody m. subst m. rewrite Z.mod_mod by lia.
    assert (E2 : 2 * k / 2 = k) by (rewrite Z.mul_comm; apply Z.div_mul; lia). rewrite E2 in *.
    destruct u; cbn [negb andb].
    - apply Z.mod_small. lia.
    - destruct (Z_lt_ge_dec v 0) as [Ng|Ng].
      + assert (E : v mod (2 * k) = v + 2 * k) by (symmetry; apply Z.mod_unique with (-1); lia). rewrite E.
        destruct (Z.leb_spec k (v + 2 * k)); lia.
      + rewrite Z.mod_small by lia. destruct (Z.leb_spec k v); lia.
  Qed.

  Lemma decode_ok t u v p off : passes t u v p -> is_bnull v = false -> at_ off (value_bytes t v) ->
    t <> T_NULL /\ decode_value data plen (Some t) u off = Ok (p, (off + length (value_bytes t v))%nat).
  Proof.
    intros P N H. destruct P as [t u|t u s Ht Ls|t u w v Ht Hw Hv|t u w bits Ht Hw Hb|t u y m d h mi s us Ht V Hm Hy|t u Ht|u neg d h mi s us Hd Hh Hdh Hmi Hs Hus Nz].
    - discriminate.
    - cbn [value_bytes] in *. pose proof (at_app _ _ _ H) as [H1 H2].
      assert (Hn : 0 <= Z.of_nat (length s) < 2 ^ 64) by lia.
      assert (G : bind (get_length_coded_int data plen off) (fun l => match fst l with None => Err | Some n =>
         if Z.of_nat plen <? (Z.of_nat (snd l) + n) mod 2 ^ 64 then Err
            else if Z.of_nat (length data) <? Z.of_nat (snd l) + n then Ub
            else Ok (PStr (firstn (Z.to_nat n) (skipn (snd l) data)), (snd l + Z.to_nat n)%nat) end) =
         Ok (PStr s, (off + length (lenenc (Z.of_nat (length s)) ++ s))%nat)).
      { rewrite (at_lenenc _ _ Hn H1). cbn [bind fst snd]. destruct (at_text _ _ H2) as [E1 E2]. pose proof H2 as (L2&_).
        rewrite Z.mod_small by lia. destruct (Z.ltb_spec (Z.of_nat plen) (Z.of_nat (off + length (lenenc (Z.of_nat (length s)))) + Z.of_nat (length s))); [lia|].
        destruct (Z.ltb_spec (Z.of_nat (length data)) (Z.of_nat (off + length (lenenc (Z.of_nat (length s)))) + Z.of_nat (length s))); [lia|].
        rewrite Nat2Z.id, E1, app_length. do 2 f_equal. lia. }
      destruct Ht as [->|[->| ->]]; (split; [discriminate|exact G]).
    - cbn [value_bytes] in *. rewrite Hw in *. assert (Wp : (0 < w)%nat) by (destruct t; try discriminate Hw; apply (f_equal (fun o => match o with Some x => x | None => 0%nat end)) in Hw; cbn in Hw; lia).
      pose proof (at_fixed _ _ _ H) as G. pose proof (as_int_ok u w v Wp Hv) as A.
      assert (E : bind (get_fixed_int data plen w off) (fun r => Ok (PInt (negb u) w (as_int (negb u) w (fst r)), snd r)) = Ok (PInt (negb u) w v, (off + length (le_bytes w v))%nat)).
      { rewrite G. cbn [bind fst snd]. rewrite A, le_bytes_length. reflexivity. }
      destruct Ht as [->|[->|[->|[->| ->]]]]; (split; [discriminate|]); cbn [int_width] in Hw; assert (Hw' := Hw); injection Hw' as Ew; subst w; exact E.
    - cbn [value_bytes] in *. rewrite Hw in *. pose proof (at_sum _ _ _ H) as G. pose proof H as (L&_). rewrite le_bytes_length in L.
      rewrite Z.mod_small in G by exact Hb.
      assert (E : (if (plen <? off + w)%nat then Err else bind (sum_bytes data w off) (fun v => Ok (PReal w v, (off + w)%nat))) = Ok (PReal w bits, (off + length (le_bytes w bits))%nat)).
      { destruct (Nat.ltb_spec plen (off + w)); [lia|]. rewrite G. cbn [bind]. rewrite le_bytes_length. reflexivity. }
      destruct Ht as [->| ->]; (split; [discriminate|]); cbn [int_width] in Hw; assert (Hw' := Hw); injection Hw' as Ew; subst w; exact E.
    - cbn [value_bytes] in *. set (f := mk_dtf y m d h mi s us). unfold valid_fields, valid_tod in V.
      assert (F : fields_ok f) by (unfold fields_ok, valid_fields, valid_tod, f; cbn [f_year f_month f_day f_hour f_minute f_second f_micro]; lia).
      pose proof (at_date off f) as G. cbn [f_year f_month f_day f_hour f_minute f_second f_micro f] in G. specialize (G H ltac:(lia) ltac:(lia) ltac:(lia) ltac:(lia) ltac:(lia) ltac:(lia) ltac:(lia)).
      assert (B : bin_date_to_datetime f = pack f).
      { unfold bin_date_to_datetime, f. cbn [f_year f_month f_day f_hour f_minute f_second f_micro].
        destruct (Z.eqb_spec m 0); [lia|]. destruct (Z.ltb_spec 12 m); [lia|]. cbn [orb]. destruct (Z.ltb_spec 31 d); [lia|].
        destruct (Z.ltb_spec 23 h); [lia|]. destruct (Z.ltb_spec 59 mi); [lia|]. destruct (Z.ltb_spec 59 s); [lia|]. cbn [orb].
        destruct (Z.ltb_spec 70 y); [|lia]. destruct (Z.ltb_spec y 100); [lia|]. destruct (Z.ltb_spec y 70); [lia|]. reflexivity. }
      assert (E : bind (get_date_fields data plen off) (fun r => Ok (PDatetime (bin_date_to_datetime (fst r)), snd r)) = Ok (PDatetime (pack f), (off + length (date_bytes y m d h mi s us))%nat)).
      { rewrite G. cbn [bind fst snd]. fold f. rewrite B. reflexivity. }
      destruct Ht as [->|[->| ->]]; (split; [discriminate|exact E]).
    - cbn [value_bytes] in *. pose proof (at_date off (mk_dtf 0 0 0 0 0 0 0) H ltac:(cbn; lia) ltac:(cbn; lia) ltac:(cbn; lia) ltac:(cbn; lia) ltac:(cbn; lia) ltac:(cbn; lia) ltac:(cbn; lia)) as G.
      assert (E : bind (get_date_fields data plen off) (fun r => Ok (PDatetime (bin_date_to_datetime (fst r)), snd r)) = Ok (PDatetime 0, (off + length (date_bytes 0 0 0 0 0 0 0))%nat)).
      { rewrite G. reflexivity. }
      destruct Ht as [->|[->| ->]]; (split; [discriminate|exact E]).
    - cbn [value_bytes] in *. split; [discriminate|]. cbn [decode_value].
      rewrite (at_time off neg d h mi s us H) by lia. cbn [bind fst snd]. do 3 f_equal.
      unfold bin_time_to_datetime. rewrite !i32_id by (try rewrite !i32_id by lia; lia).
      destruct (Z.ltb_spec d 0); [lia|]. destruct (Z.ltb_spec h 0); [lia|]. destruct (Z.ltb_spec mi 0); [lia|]. destruct (Z.ltb_spec 59 mi); [lia|].
      destruct (Z.ltb_spec s 0); [lia|]. destruct (Z.ltb_spec 59 s); [lia|]. cbn [orb]. f_equal. lia.
  Qed.

  Lemma param_type_code t : param_type (mtype_code t) = Some t.
  Proof. destruct t; reflexivity. Qed.

  Definition bound_of (p : mtype * bool * bval) : option mtype * bool := (Some (fst (fst p)), snd (fst p)).
  Lemma types_ok ps : forall off, at_ off (concat (map type_bytes ps)) -> get_types data (length ps) off = Ok (map bound_of ps).
  Proof.
    induction ps as [|[[t u] v] ps IH]; intros off H; [reflexivity|]. cbn [length get_types map concat type_bytes app] in *.
    rewrite (at_load _ _ _ H). cbn [bind]. 
    change (mtype_code t :: (if u then 128 else 0) :: concat (map type_bytes ps)) with ([mtype_code t] ++ (if u then 128 else 0) :: concat (map type_bytes ps)) in H.
    apply at_app in H as [_ H]. cbn [length] in H. rewrite Nat.add_1_r in H. rewrite (at_load _ _ _ H). cbn [bind].
    change ((if u then 128 else 0) :: concat (map type_bytes ps)) with ([if u then 128 else 0] ++ concat (map type_bytes ps)) in H.
    apply at_app in H as [_ H]. cbn [length] in H. rewrite (IH (off + 2)%nat) by (replace (off + 2)%nat with (S off + 1)%nat by lia; exact H). cbn [bind].
    rewrite param_type_code. unfold bound_of at 2. cbn [fst snd]. do 3 f_equal. destruct u; reflexivity.
  Qed.

  Lemma params_ok bm_off fs ps : at_ bm_off (bitmap (length fs) fs) ->
    forall idx pars off, Forall2 (fun p q => passes (fst (fst p)) (snd (fst p)) (snd p) q) ps pars ->
    (forall k, (k < length ps)%nat -> nth (idx + k) fs false = is_bnull (snd (nth k ps (T_NULL, false, BNull)))) -> (idx + length ps <= length fs)%nat ->
    at_ off (concat (map (fun p => value_bytes (fst (fst p)) (snd p)) ps)) ->
    get_params data plen bm_off idx (map bound_of ps) off = Ok pars.
  Proof.
    intros Hb. induction ps as [|[[t u] v] ps IH]; intros idx pars off F Hf L H.
    { inversion F. reflexivity. }
    destruct pars as [|q pars]; [inversion F|]. assert (F' := F). inversion F' as [|x y l l' Pq Ft]; subst. cbn [fst snd] in Pq.
    cbn [map concat length] in *. unfold bound_of at 1. cbn [fst snd get_params].
    assert (Ix : (idx < length fs)%nat) by lia. destruct (bitmap_bit (length fs) fs idx ltac:(lia) Ix) as [B1 B2].
    assert (Ld : load data (bm_off + idx / 8) = Ok (nth (idx / 8) (bitmap (length fs) fs) 0)).
    { destruct Hb as (_&pre&post&E&P). unfold load. rewrite E, nth_error_app2 by lia. rewrite P.
      replace (bm_off + idx / 8 - bm_off)%nat with (idx / 8)%nat by lia. rewrite nth_error_app1 by exact B1.
      rewrite (nth_error_nth' _ 0 B1). reflexivity. }
    rewrite Ld. cbn [bind]. rewrite is_null_bit, B2. specialize (Hf 0%nat ltac:(lia)) as Hf0. cbn [nth snd] in Hf0. rewrite Nat.add_0_r in Hf0. rewrite Hf0.
    apply at_app in H as [H1 H2].
    assert (Nx : get_params data plen bm_off (S idx) (map bound_of ps) (off + length (value_bytes t v)) = Ok pars).
    { apply IH; [exact Ft| |lia|exact H2]. intros k Hk. specialize (Hf (S k) ltac:(lia)). cbn [nth] in Hf. rewrite <- Hf. f_equal. lia. }
    destruct (is_bnull v) eqn:Ev.
    - destruct v; try discriminate Ev. inversion Pq; subst. cbn [bind fst snd value_bytes length] in *. rewrite Nat.add_0_r in Nx. rewrite Nx. reflexivity.
    - destruct (decode_ok t u v q off Pq Ev H1) as [Nt D].
      assert (Em : (match Some t with Some T_NULL => Ok (PNull, off) | _ => decode_value data plen (Some t) u off end) = Ok (q, (off + length (value_bytes t v))%nat)).
      { destruct t; try exact D. congruence. }
      rewrite Em. cbn [bind fst snd]. rewrite Nx. reflexivity.
  Qed.

  Lemma execute_ok off stmt st ps pars bound : at_ off (skipn 1 (execute_bytes stmt st ps)) -> 0 <= stmt < 2 ^ 32 ->
    Forall2 (fun p q => passes (fst (fst p)) (snd (fst p)) (snd p) q) ps pars ->
    (ps <> [] -> st = false -> bound = map bound_of ps) ->
    stmt_execute data plen off (length ps) bound = Ok (stmt, pars, match ps with [] => bound | _ => map bound_of ps end).
  Proof.
    intros H Hst F Hb. unfold execute_bytes in H. cbn [app skipn] in H.
    apply at_app in H as [H1 H]. rewrite le_bytes_length in H.
    change (0 :: le_bytes 4 1 ++ match ps with [] => [] | _ :: _ => params_bytes st ps end) with ([0] ++ le_bytes 4 1 ++ match ps with [] => [] | _ :: _ => params_bytes st ps end) in H.
    pose proof (at_char _ _ _ H) as C1. apply at_app in H as [_ H]. cbn [length] in H. rewrite Nat.add_1_r in H. apply at_app in H as [H3 H]. rewrite le_bytes_length in H.
    unfold stmt_execute. rewrite (at_fixed _ _ _ H1). cbn [bind fst snd]. rewrite C1. cbn [bind fst snd]. change (negb (0 =? 0)) with false. cbv iota.
    rewrite (at_fixed _ _ _ H3). cbn [bind fst snd]. rewrite Z.mod_small by (change (256 ^ Z.of_nat 4) with (2 ^ 32); lia).
    destruct ps as [|p0 ps0].
    { inversion F. reflexivity. }
    set (ps := p0 :: ps0) in *. change (length ps) with (S (length ps0)). cbv iota. change (S (length ps0)) with (length ps).
    unfold params_bytes in H. apply at_app in H as [Hm H]. set (fs := map (fun p => is_bnull (snd p)) ps) in *.
    assert (Lf : length ps = length fs) by (unfold fs; rewrite map_length; reflexivity).
    rewrite Lf in Hm, H. rewrite bitmap_length in H by lia. rewrite <- Lf in H.
    set (o := (S (off + 4) + 4)%nat) in *.
    assert (Rest : exists ofv, bind (get_char data plen (o + (length ps + 7) / 8)) (fun nf => bind (if fst nf =? 1 then
                   bind (get_types data (length ps) (snd nf)) (fun ts => Ok (ts, (snd nf + 2 * length ps)%nat)) else Ok (bound, snd nf))
                   (fun b => match fst b with [] => Err | _ => bind (get_params data plen o 0 (fst b) (snd b)) (fun vs => Ok (stmt, vs, fst b)) end)) =
              bind (get_params data plen o 0 (map bound_of ps) ofv) (fun vs => Ok (stmt, vs, map bound_of ps)) /\
              at_ ofv (concat (map (fun p => value_bytes (fst (fst p)) (snd p)) ps))).
    { destruct st.
      - apply at_app in H as [Ht Hv]. cbn [app] in Ht. rewrite (at_char _ _ _ Ht). cbn [bind fst snd]. change (1 =? 1) with true. cbv iota.
        change (1 :: concat (map type_bytes ps)) with ([1] ++ concat (map type_bytes ps)) in Ht. apply at_app in Ht as [_ Ht]. cbn [length] in Ht. rewrite Nat.add_1_r in Ht.
        rewrite (types_ok ps _ Ht). cbn [bind fst snd].
        assert (Lt : length (concat (map type_bytes ps)) = (2 * length ps)%nat).
        { clear. induction ps as [|[[t u] v] ps IH]; [reflexivity|]. cbn [map concat type_bytes length app]. rewrite IH. lia. }
        eexists. split; [reflexivity|]. cbn [app length] in Hv. rewrite Lt in Hv.
        replace (S (o + (length ps + 7) / 8) + 2 * length ps)%nat with (o + (length ps + 7) / 8 + S (2 * length ps))%nat by lia. exact Hv.
      - apply at_app in H as [Ht Hv]. rewrite (at_char _ _ _ Ht). cbn [bind fst snd]. change (0 =? 1) with false. cbv iota. cbn [bind fst snd].
        rewrite (Hb ltac:(discriminate) eq_refl). eexists. split; [reflexivity|]. cbn [length] in Hv. rewrite Nat.add_1_r in Hv. exact Hv. }
    destruct Rest as (ofv&ER&Hv). etransitivity; [exact ER|].
    assert (G : get_params data plen o 0 (map bound_of ps) ofv = Ok pars).
    { apply (params_ok o fs ps Hm 0 pars ofv F); [|lia|exact Hv]. intros k Hk. cbn [Nat.add]. unfold fs.
      change false with ((fun p : mtype * bool * bval => is_bnull (snd p)) (T_NULL, false, BInt 0)) at 1.
      rewrite map_nth. rewrite (nth_indep ps _ (T_NULL, false, BNull) Hk). reflexivity. }
    rewrite G. reflexivity.
  Qed.
End At.

(* ---- no read outside the packet ---- *)
Section Safe.
  Variable data : list Z.
  Variable plen : nat.
  Hypothesis inside : (plen <= length data)%nat.

  Lemma load_in off : (off < plen)%nat -> exists b, load data off = Ok b.
  Proof.
    intros H. unfold load. destruct (nth_error data off) as [b|] eqn:E; [eauto|]. apply nth_error_None in E. lia.
  Qed.
  Lemma sum_in n : forall off, (off + n <= plen)%nat -> exists v, sum_bytes data n off = Ok v.
  Proof.
    induction n as [|n IH]; intros off H; cbn [sum_bytes]; [eauto|]. destruct (load_in off ltac:(lia)) as [b ->]. cbn [bind].
    destruct (IH (S off) ltac:(lia)) as [v ->]. cbn [bind]. eauto.
  Qed.
  Lemma fixed_in n off : get_fixed_int data plen n off = Err \/ exists v, get_fixed_int data plen n off = Ok (v, (off + n)%nat).
  Proof.
    unfold get_fixed_int. destruct (Nat.ltb_spec plen (off + n)); [auto|]. right. destruct (sum_in n off H) as [v ->]. cbn [bind]. eauto.
  Qed.
  Lemma char_in off : get_char data plen off = Err \/ exists b, get_char data plen off = Ok (b, S off) /\ (off < plen)%nat.
  Proof.
    unfold get_char. destruct (Nat.ltb_spec plen (off + 1)); [auto|]. right. destruct (load_in off ltac:(lia)) as [b ->]. cbn [bind]. exists b. split; [reflexivity|lia].
  Qed.
  Lemma scan_in fuel : forall off len, (plen <= off + len + fuel)%nat -> (off <= plen)%nat -> exists n, scan_nul data plen fuel off len = Ok n /\ (len <= n)%nat /\
     ((off + n < plen)%nat -> nth_error data (off + n) = Some 0) /\ (forall i, (len <= i < n)%nat -> exists b, nth_error data (off + i) = Some b /\ b <> 0) /\
     (off + len <= plen -> off + n <= plen)%nat.
  Proof.
    induction fuel as [|f IH]; intros off len L Lo; cbn [scan_nul].
    { exists len. split; [reflexivity|]. split; [lia|]. split; [lia|]. split; [intros i Hi; lia|lia]. }
    destruct (Nat.ltb_spec (off + len) plen) as [G|G].
    - destruct (load_in (off + len) G) as [b Eb]. rewrite Eb. cbn [bind]. unfold load in Eb. destruct (nth_error data (off + len)) as [b'|] eqn:En; [|discriminate]. injection Eb as ->.
      destruct (Z.eqb_spec b 0) as [->|N].
      + exists len. split; [reflexivity|]. split; [lia|]. split; [auto|]. split; [intros i Hi; lia|lia].
      + destruct (IH off (S len) ltac:(lia) Lo) as (n&E&Ln&E0&En0&Lp). exists n. split; [exact E|]. split; [lia|]. split; [exact E0|]. split.
        * intros i Hi. destruct (Nat.eq_dec i len) as [->|]; [eauto|]. apply En0. lia.
        * intros _. apply Lp. lia.
    - exists len. split; [reflexivity|]. split; [lia|]. split; [lia|]. split; [intros i Hi; lia|lia].
  Qed.

  Lemma nonzero_prefix off n : (off + n <= length data)%nat -> (forall i, (i < n)%nat -> exists b, nth_error data (off + i) = Some b /\ b <> 0) ->
    ~ In 0 (firstn n (skipn off data)).
  Proof.
    intros L H Hin. apply In_nth_error in Hin as [i Ei]. assert (Li : (i < n)%nat).
    { assert (i < length (firstn n (skipn off data)))%nat by (apply nth_error_Some; congruence). rewrite firstn_length in H0. lia. }
    destruct (H i Li) as (b&Eb&Nb). assert (E2 : nth_error (firstn n (skipn off data)) i = nth_error data (off + i)).
    { clear -Li. revert off Li. generalize data. clear. intros l off. revert l n i. induction off as [|off IH]; intros l n i Li; cbn [skipn Nat.add].
      - revert l i Li. induction n as [|n IHn]; intros l i Li; [lia|]. destruct l as [|x l]; [destruct i; reflexivity|]. destruct i; [reflexivity|]. cbn [firstn nth_error]. apply IHn. lia.
      - destruct l as [|x l]; [rewrite firstn_nil; destruct i; reflexivity|]. cbn [nth_error]. apply IH. exact Li. }
    congruence.
  Qed.

  Lemma string_in off : (off <= plen)%nat -> get_string data plen off = Err \/
    exists s, get_string data plen off = Ok (s, (off + length s + 1)%nat) /\ (off + length s < plen)%nat /\ (length s < 1024)%nat /\
      ~ In 0 s /\ firstn (length s) (skipn off data) = s /\ nth_error data (off + length s) = Some 0.
  Proof.
    intros Lo. unfold get_string. destruct (scan_in plen off 0 ltac:(lia) Lo) as (n&E&_&E0&En&Lp). rewrite E. cbn [bind].
    destruct (Nat.leb_spec plen (off + n)) as [G|G]; [auto|]. destruct (Nat.ltb_spec 1024 (n + 1)) as [G2|G2]; [auto|]. right.
    set (s := firstn n (skipn off data)). assert (Ls : length s = n) by (unfold s; rewrite firstn_length, skipn_length; lia).
    exists s. rewrite Ls. split; [reflexivity|]. split; [exact G|]. split; [lia|]. split; [|split; [reflexivity|apply E0; exact G]].
    apply nonzero_prefix; [lia|]. intros i Hi. apply En. lia.
  Qed.

  Lemma decode_safe t u off : t <> Some T_STRING -> t <> Some T_BLOB -> t <> Some T_VAR_STRING -> decode_value data plen t u off <> Ub.
  Proof.
    intros N1 N2 N3.
    assert (Int : forall n, bind (get_fixed_int data plen n off) (fun r => Ok (PInt (negb u) n (as_int (negb u) n (fst r)), snd r)) <> Ub).
    { intros n. destruct (fixed_in n off) as [E|[v E]]; rewrite E; discriminate. }
    assert (Rl : forall n, (if (plen <? off + n)%nat then Err else bind (sum_bytes data n off) (fun v => Ok (PReal n v, (off + n)%nat))) <> Ub).
    { intros n. destruct (Nat.ltb_spec plen (off + n)); [discriminate|]. destruct (sum_in n off H) as [v E]. rewrite E. discriminate. }
    assert (Dt : bind (get_date_fields data plen off) (fun r => Ok (PDatetime (bin_date_to_datetime (fst r)), snd r)) <> Ub).
    { unfold get_date_fields. 
      repeat (cbn [bind fst snd]; match goal with
        | |- context [get_fixed_int data plen ?n ?o] => let v := fresh "v" in destruct (fixed_in n o) as [->|[v ->]]
        | |- context [if ?c then _ else _] => destruct c
        end); cbn [bind]; discriminate. }
    assert (Tm : bind (get_time_value data plen off) (fun r => Ok (PTime (fst r), snd r)) <> Ub).
    { unfold get_time_value.
      repeat (cbn [bind fst snd]; match goal with
        | |- context [get_fixed_int data plen ?n ?o] => let v := fresh "v" in destruct (fixed_in n o) as [->|[v ->]]
        | |- context [if ?c then _ else _] => destruct c
        end); cbn [bind]; discriminate. }
    destruct t as [t|]; [|discriminate]. destruct t; try congruence; cbn [decode_value]; auto; discriminate.
  Qed.

  Lemma auth_facts users allowed : (36 <= plen)%nat \/ True -> auth_read data plen users allowed = Err \/
    exists user scramble, auth_read data plen users allowed = Ok user /\ users user = Some scramble /\ allowed user = true /\ length scramble = 20%nat /\
      ~ In 0 user /\ (36 + length user + 22 <= plen)%nat /\ firstn (length user + 22) (skipn 36 data) = user ++ [0; 20] ++ scramble.
  Proof.
    intros _. unfold auth_read. destruct (fixed_in 4 4) as [->|[cap ->]]; [auto|]. cbn [bind fst snd].
    destruct (char_in 12) as [->|[cs [-> Lc]]]; [auto|]. cbn [bind fst snd]. change (13 + 23)%nat with 36%nat.
    destruct (Nat.le_gt_cases 36 plen) as [L36|L36].
    2:{ left. unfold get_string. assert (exists f, plen = S f) as [f Ef] by (destruct plen; [lia|eauto]). rewrite Ef at 2. cbn [scan_nul].
        destruct (Nat.ltb_spec (36 + 0) plen); [lia|]. cbn [bind]. destruct (Nat.leb_spec plen (36 + 0)); [reflexivity|lia]. }
    destruct (string_in 36 L36) as [->|(user&->&Lu&L1024&Nz&Eu&E0)]; [auto|]. cbn [bind fst snd].
    destruct (users user) as [scramble|] eqn:Us; [|auto]. set (off := (36 + length user + 1)%nat).
    destruct (Nat.ltb_spec plen (off + 1)) as [G|G]; [auto|]. destruct (load_in off ltac:(lia)) as [b Eb]. rewrite Eb. cbn [bind].
    destruct (Z.eqb_spec b 20) as [->|]; [cbn [negb]|auto]. destruct (Nat.ltb_spec plen (20 + S off)) as [G2|G2]; [auto|].
    destruct (list_eq_dec Z.eq_dec (firstn 20 (skipn (S off) data)) scramble) as [Es|]; [cbn [negb]|auto].
    destruct (allowed user) eqn:Al; [cbn [negb]|auto].
    assert (Fin : exists user0 scramble0 : list Z, Ok user = Ok user0 /\ users user0 = Some scramble0 /\ allowed user0 = true /\ length scramble0 = 20%nat /\
      ~ In 0 user0 /\ (36 + length user0 + 22 <= plen)%nat /\ firstn (length user0 + 22) (skipn 36 data) = user0 ++ [0; 20] ++ scramble0).
    { exists user, scramble. split; [reflexivity|]. split; [exact Us|]. split; [exact Al|].
      split; [rewrite <- Es, firstn_length, skipn_length; lia|]. split; [exact Nz|]. split; [lia|].
      assert (Sk : forall n (l : list Z), skipn n l = match nth_error l n with Some x => x :: skipn (S n) l | None => [] end).
      { clear. induction n as [|n IH]; intros [|x l]; cbn [skipn nth_error]; try reflexivity. apply IH. }
      assert (Fa : forall a b (l : list Z), firstn (a + b) l = firstn a l ++ firstn b (skipn a l)).
      { clear. induction a as [|a IH]; intros b l; [reflexivity|]. destruct l as [|x l]; [cbn; rewrite firstn_nil; reflexivity|]. cbn [Nat.add firstn skipn app]. rewrite IH. reflexivity. }
      assert (Ss : forall a b (l : list Z), skipn a (skipn b l) = skipn (b + a) l).
      { clear. intros a b. induction b as [|b IH]; intros l; [reflexivity|]. destruct l; [apply skipn_nil|apply IH]. }
      rewrite Fa, Eu. f_equal. rewrite Ss, (Sk (36 + length user)%nat), E0. cbn [firstn app]. f_equal.
      rewrite (Sk (S (36 + length user))). unfold load in Eb. replace off with (S (36 + length user)) in Eb by (unfold off; lia).
      destruct (nth_error data (S (36 + length user))); [|discriminate]. injection Eb as ->. cbn [firstn]. f_equal.
      replace (S (S (36 + length user))) with (S off) by (unfold off; lia). exact Es. }
    destruct (Z.testbit cap 3); [|right; exact Fin].
    destruct (string_in (S off + 20) ltac:(lia)) as [->|(db&->&_)]; cbn [bind]; [auto|right; exact Fin].
  Qed.
End Safe.

(* a well-formed login is accepted *)
Lemma scan_string data plen pre s post off : data = pre ++ s ++ 0 :: post -> length pre = off -> ~ In 0 s -> (off + length s < plen)%nat -> (length s < 1024)%nat ->
  get_string data plen off = Ok (s, (off + length s + 1)%nat).
Proof.
  intros E P N L L2. unfold get_string.
  assert (Sc : forall f k, (k <= length s)%nat -> (length s - k < f)%nat -> scan_nul data plen f off k = Ok (length s)).
  { induction f as [|f IH]; intros k Hk Hf; [lia|]. cbn [scan_nul]. destruct (Nat.ltb_spec (off + k) plen); [|lia].
    unfold load. rewrite E, nth_error_app2 by lia. replace (off + k - length pre)%nat with k by lia.
    destruct (Nat.eq_dec k (length s)) as [->|Nk].
    - rewrite nth_error_app2, Nat.sub_diag by lia. cbn [nth_error bind]. reflexivity.
    - rewrite nth_error_app1 by lia. destruct (nth_error s k) as [b|] eqn:Eb; [|apply nth_error_None in Eb; lia]. cbn [bind].
      destruct (Z.eqb_spec b 0) as [->|]; [exfalso; apply N; eapply nth_error_In; exact Eb|]. rewrite <- E; apply IH; lia. }
  rewrite Sc by lia. cbn [bind]. destruct (Nat.leb_spec plen (off + length s)); [lia|]. destruct (Nat.ltb_spec 1024 (length s + 1)); [lia|].
  do 2 f_equal. rewrite E, skipn_app, skipn_all2 by lia. replace (off - length pre)%nat with 0%nat by lia. cbn [app skipn].
  rewrite firstn_app, firstn_all, Nat.sub_diag, firstn_O, app_nil_r. reflexivity.
Qed.
Lemma login_ok hdr caps fixed user scramble db rest users allowed : length hdr = 4%nat -> 0 <= caps < 2 ^ 32 -> length fixed = 28%nat -> ~ In 0 user -> (length user < 1024)%nat ->
  length scramble = 20%nat -> ~ In 0 db -> (length db < 1024)%nat -> users user = Some scramble -> allowed user = true ->
  auth_read (hdr ++ login_bytes caps fixed user scramble db ++ rest) (4 + length (login_bytes caps fixed user scramble db)) users allowed = Ok user.
Proof.
  intros Lh Hc Lf Nu Lu Lsc Nd Ld Us Al. set (bytes := login_bytes caps fixed user scramble db). set (data := hdr ++ bytes ++ rest). set (plen := (4 + length bytes)%nat).
  set (tailb := if Z.testbit caps 3 then db ++ [0] else []).
  assert (Eb : bytes = le_bytes 4 caps ++ fixed ++ user ++ [0] ++ [20] ++ scramble ++ tailb) by reflexivity.
  assert (Lb : length bytes = (32 + length user + 22 + length tailb)%nat).
  { rewrite Eb, !app_length, le_bytes_length, Lf, Lsc. cbn [length]. lia. }
  assert (A0 : at_ data plen 4 bytes) by (split; [unfold plen; lia|exists hdr, rest; auto]).
  assert (A1 := A0). rewrite Eb in A1. apply at_app in A1 as [A1 A2]. rewrite le_bytes_length in A2.
  unfold auth_read. rewrite (at_fixed _ _ _ _ _ A1). cbn [bind fst snd]. rewrite Z.mod_small by (change (256 ^ Z.of_nat 4) with (2 ^ 32); lia).
  assert (exists c, get_char data plen 12 = Ok (c, 13%nat)) as [c Ec].
  { destruct (char_in data plen ltac:(unfold data, plen; rewrite !app_length; lia) 12) as [E|[b [E _]]]; [|eauto].
    unfold get_char in E. destruct (Nat.ltb_spec plen (12 + 1)); [unfold plen in *; lia|]. destruct (load_in data plen ltac:(unfold data, plen; rewrite !app_length; lia) 12 ltac:(lia)) as [b Hb]. rewrite Hb in E. discriminate. }
  rewrite Ec. cbn [bind fst snd]. change (13 + 23)%nat with 36%nat.
  assert (Ed : data = (hdr ++ le_bytes 4 caps ++ fixed) ++ user ++ 0 :: [20] ++ scramble ++ tailb ++ rest).
  { unfold data. rewrite Eb. rewrite <- !app_assoc. reflexivity. }
  assert (L36 : length (hdr ++ le_bytes 4 caps ++ fixed) = 36%nat) by (rewrite !app_length, le_bytes_length; lia).
  rewrite (scan_string data plen _ user _ 36 Ed L36 Nu) by (unfold plen; lia). cbn [bind fst snd]. rewrite Us.
  set (off := (36 + length user + 1)%nat). destruct (Nat.ltb_spec plen (off + 1)); [unfold plen, off in *; lia|].
  assert (Ed2 : data = ((hdr ++ le_bytes 4 caps ++ fixed) ++ user ++ [0]) ++ 20 :: scramble ++ tailb ++ rest) by (rewrite Ed, <- !app_assoc; reflexivity).
  assert (Lo : length ((hdr ++ le_bytes 4 caps ++ fixed) ++ user ++ [0]) = off) by (rewrite app_length, L36, app_length; unfold off; cbn [length]; lia).
  assert (Eo : load data off = Ok 20).
  { unfold load. rewrite Ed2, nth_error_app2 by lia. rewrite Lo, Nat.sub_diag. reflexivity. }
  rewrite Eo. cbn [bind]. change (negb (20 =? 20)) with false. cbv iota. destruct (Nat.ltb_spec plen (20 + S off)); [unfold plen, off in *; lia|].
  assert (Ed3 : data = (((hdr ++ le_bytes 4 caps ++ fixed) ++ user ++ [0]) ++ [20]) ++ scramble ++ tailb ++ rest) by (rewrite Ed2, <- !app_assoc; reflexivity).
  assert (Lo3 : length (((hdr ++ le_bytes 4 caps ++ fixed) ++ user ++ [0]) ++ [20]) = S off) by (rewrite app_length, Lo; cbn [length]; lia).
  assert (Es : firstn 20 (skipn (S off) data) = scramble).
  { rewrite Ed3, skipn_app. rewrite skipn_all2 by lia. rewrite Lo3, Nat.sub_diag. cbn [app skipn].
    rewrite firstn_app. rewrite <- Lsc at 1. rewrite firstn_all, Lsc, Nat.sub_diag, firstn_O, app_nil_r. reflexivity. }
  destruct (list_eq_dec Z.eq_dec (firstn 20 (skipn (S off) data)) scramble); [cbn [negb]|congruence]. rewrite Al. cbn [negb].
  unfold tailb in *. destruct (Z.testbit caps 3); [|reflexivity].
  assert (Ed4 : data = ((((hdr ++ le_bytes 4 caps ++ fixed) ++ user ++ [0]) ++ [20]) ++ scramble) ++ db ++ 0 :: rest) by (rewrite Ed3, <- !app_assoc; reflexivity).
  rewrite (scan_string data plen _ db _ (S off + 20) Ed4); [reflexivity|rewrite app_length, Lo3, Lsc; reflexivity|exact Nd| |exact Ld].
  rewrite app_length in Lb. cbn [length] in Lb. unfold plen, off. lia.
Qed.
