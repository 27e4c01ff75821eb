(** The dense encoding: what the six bit accesses read and write. *)
From Coq Require Import NArith ZArith List Bool Lia.
From Verif.Hll Require Import Spec Model.
Import ListNotations.
Open Scope N_scope.

Lemma length_upd l n v : length (upd l n v) = length l.
Proof. revert n; induction l; destruct n; cbn; auto. Qed.

Lemma nth_upd l n v m :
  nth m (upd l n v) 0 = if (m =? n)%nat && (n <? length l)%nat then v else nth m l 0.
Proof.
  revert n m; induction l as [|b t IH]; intros n m.
  - cbn. destruct n; destruct m; cbn; rewrite ?andb_false_r; reflexivity.
  - destruct n as [|n]; destruct m as [|m]; cbn [upd nth length Nat.eqb andb]; try reflexivity.
    rewrite IH. change (S n <? S (length t))%nat with (n <? length t)%nat. reflexivity.
Qed.

Lemma Forall_upd P l n v : Forall P l -> P v -> Forall P (upd l n v).
Proof.
  intros F Pv; revert n; induction F; intros [|n]; cbn; constructor; auto.
Qed.

Lemma nth_byte l n : bytes l -> nth n l 0 < 256.
Proof.
  intros B. destruct (Nat.lt_ge_cases n (length l)) as [L|L].
  - exact (proj1 (Forall_forall _ _) B _ (nth_In _ _ L)).
  - rewrite nth_overflow by exact L. lia.
Qed.

Lemma len_eq (l : list N) n : length l = N.to_nat n -> len l = n.
Proof. intros E. unfold len. rewrite E. lia. Qed.

Lemma rd_ok l i : i <= len l -> rd l i = Some (nth (N.to_nat i) l 0).
Proof. intros L. unfold rd. destruct (N.leb_spec i (len l)); [reflexivity|lia]. Qed.

Lemma wr_ok l i v : i < len l -> wr l i v = Some (upd l (N.to_nat i) v).
Proof. intros L. unfold wr. destruct (N.ltb_spec i (len l)); [reflexivity|lia]. Qed.

Lemma testbit_small b n m : b < 2 ^ n -> n <= m -> N.testbit b m = false.
Proof.
  intros L G. destruct (N.eq_dec b 0) as [->|Z]; [apply N.bits_0|].
  apply N.bits_above_log2. apply N.log2_lt_pow2 in L; lia.
Qed.

(** Bits of the packed number. *)
Lemma le_bits l : bytes l -> forall n,
  N.testbit (little_endian l) n = N.testbit (nth (N.to_nat (n / 8)) l 0) (n mod 8).
Proof.
  induction 1 as [|b t B F IH]; intros n.
  - cbn [little_endian]. rewrite N.bits_0. destruct (N.to_nat (n / 8)); cbn [nth]; now rewrite N.bits_0.
  - cbn [little_endian].
    assert (E : b + 256 * little_endian t = N.lor b (N.shiftl (little_endian t) 8)).
    { rewrite N.shiftl_mul_pow2, <- N.lxor_lor, <- N.add_nocarry_lxor; [f_equal; lia| |].
      all: apply N.bits_inj; intros m; rewrite N.land_spec, N.bits_0.
      all: destruct (N.lt_ge_cases m 8) as [L|L];
        [rewrite N.mul_pow2_bits_low by exact L; apply andb_false_r
        |rewrite (testbit_small b 8 m) by (assumption || exact B); reflexivity]. }
    rewrite E, N.lor_spec.
    destruct (N.lt_ge_cases n 8) as [L|L].
    + rewrite N.shiftl_spec_low by exact L. rewrite orb_false_r.
      rewrite N.div_small, N.mod_small by exact L. reflexivity.
    + rewrite (testbit_small b 8 n) by (assumption || exact B).
      rewrite N.shiftl_spec_high' by exact L. cbn [orb]. rewrite IH.
      replace n with ((n - 8) + 1 * 8) at 3 4 by lia.
      rewrite N.div_add, N.mod_add by lia.
      rewrite N2Nat.inj_add. rewrite Nat.add_comm. reflexivity.
Qed.

(** Bit [k] of the number at place [i]. *)
Lemma dense_at_bits l i k : bytes l ->
  N.testbit (dense_at l i) k =
  if k <? 6 then N.testbit (nth (N.to_nat ((6 * i + k) / 8)) l 0) ((6 * i + k) mod 8) else false.
Proof.
  intros B. unfold dense_at. change 64 with (2 ^ 6) at 2. rewrite <- N.land_ones, N.land_spec.
  change (64 ^ i) with ((2 ^ 6) ^ i). rewrite <- N.pow_mul_r, <- N.shiftr_div_pow2.
  rewrite N.shiftr_spec'. rewrite le_bits by exact B.
  rewrite N.add_comm with (n := k). destruct (N.ltb_spec k 6) as [L|L].
  - rewrite N.ones_spec_low by exact L. apply andb_true_r.
  - rewrite N.ones_spec_high by exact L. apply andb_false_r.
Qed.

Lemma dense_at_small l i : dense_at l i < 64.
Proof. unfold dense_at. apply N.mod_lt. lia. Qed.

(** The four positions of a number within three bytes. *)
Lemma position i : exists q r,
  i = 4 * q + r /\
  ((r = 0 /\ i * 6 / 8 = 3 * q /\ N.land (i * 6) 7 = 0)
   \/ (r = 1 /\ i * 6 / 8 = 3 * q /\ N.land (i * 6) 7 = 6)
   \/ (r = 2 /\ i * 6 / 8 = 3 * q + 1 /\ N.land (i * 6) 7 = 4)
   \/ (r = 3 /\ i * 6 / 8 = 3 * q + 2 /\ N.land (i * 6) 7 = 2)).
Proof.
  exists (i / 4), (i mod 4). pose proof (N.div_mod i 4). pose proof (N.mod_lt i 4).
  split; [lia|].
  set (q := i / 4) in *. set (r := i mod 4) in *. clearbody q r.
  assert (E : i = 4 * q + r) by lia. subst i.
  change 7 with (N.ones 3). rewrite N.land_ones. change (2 ^ 3) with 8.
  assert (C : r = 0 \/ r = 1 \/ r = 2 \/ r = 3) by lia.
  destruct C as [->|[->|[->| ->]]].
  - left. split; [reflexivity|]. split.
    + symmetry. apply N.div_unique with 0; lia.
    + symmetry. apply N.mod_unique with (3 * q); lia.
  - right; left. split; [reflexivity|]. split.
    + symmetry. apply N.div_unique with 6; lia.
    + symmetry. apply N.mod_unique with (3 * q); lia.
  - right; right; left. split; [reflexivity|]. split.
    + symmetry. apply N.div_unique with 4; lia.
    + symmetry. apply N.mod_unique with (3 * q + 1); lia.
  - right; right; right. split; [reflexivity|]. split.
    + symmetry. apply N.div_unique with 2; lia.
    + symmetry. apply N.mod_unique with (3 * q + 2); lia.
Qed.

Lemma small6 k : k < 6 -> k = 0 \/ k = 1 \/ k = 2 \/ k = 3 \/ k = 4 \/ k = 5.
Proof. lia. Qed.
Lemma small8 k : k < 8 -> k = 0 \/ k = 1 \/ k = 2 \/ k = 3 \/ k = 4 \/ k = 5 \/ k = 6 \/ k = 7.
Proof. lia. Qed.

Ltac divmod x d :=
  let q := fresh "q" in let r := fresh "r" in
  pose proof (N.div_mod x d); pose proof (N.mod_lt x d);
  set (q := x / d) in *; set (r := x mod d) in *; clearbody q r.

Ltac six L := destruct (small6 _ L) as [->|[->|[->|[->|[->| ->]]]]].
Ltac eight L := destruct (small8 _ L) as [->|[->|[->|[->|[->|[->|[->| ->]]]]]]].

Definition ok_dense (l : list N) := bytes l /\ length l = N.to_nat DENSE_BYTES.

Lemma dense_get_ok l i : ok_dense l -> i < REGS -> dense_get l i = Some (dense_at l i).
Proof.
  intros [B L] I. apply len_eq in L. unfold dense_get, REGS, DENSE_BYTES in *.
  destruct (position i) as (q & r & E & P).
  rewrite !rd_ok by lia. f_equal. apply N.bits_inj. intros k.
  rewrite dense_at_bits by exact B. unfold REGISTER_MAX. rewrite N.land_spec.
  destruct (N.ltb_spec k 6) as [K|K].
  2:{ change 63 with (N.ones 6). rewrite N.ones_spec_high by exact K. apply andb_false_r. }
  change 63 with (N.ones 6). rewrite N.ones_spec_low by exact K. rewrite andb_true_r.
  rewrite N.lor_spec, N.shiftr_spec'.
  set (b0 := nth (N.to_nat (i * 6 / 8)) l 0). set (b1 := nth (N.to_nat (i * 6 / 8 + 1)) l 0).
  assert (B0 : b0 < 2 ^ 8) by (apply nth_byte; exact B).
  assert (S : forall p m, k + p = m -> m < 8 -> p = N.land (i * 6) 7 ->
     (6 * i + k) / 8 = i * 6 / 8 /\ (6 * i + k) mod 8 = m).
  { intros p m Em M Ep. split.
    - symmetry. apply N.div_unique with m; [lia|]. destruct P as [P|[P|[P|P]]]; lia.
    - symmetry. apply N.mod_unique with (i * 6 / 8); [lia|]. destruct P as [P|[P|[P|P]]]; lia. }
  assert (S2 : forall p m, k + p = m + 8 -> m < 8 -> p = N.land (i * 6) 7 ->
     (6 * i + k) / 8 = i * 6 / 8 + 1 /\ (6 * i + k) mod 8 = m).
  { intros p m Em M Ep. split.
    - symmetry. apply N.div_unique with m; [lia|]. destruct P as [P|[P|[P|P]]]; lia.
    - symmetry. apply N.mod_unique with (i * 6 / 8 + 1); [lia|]. destruct P as [P|[P|[P|P]]]; lia. }
  set (fb := N.land (i * 6) 7) in *.
  assert (FB : fb = 0 \/ fb = 6 \/ fb = 4 \/ fb = 2) by (destruct P as [P|[P|[P|P]]]; lia).
  destruct (N.lt_ge_cases (k + fb) 8) as [M|M].
  - destruct (S fb (k + fb) eq_refl M eq_refl) as [-> ->].
    rewrite N.shiftl_spec_low by lia. rewrite orb_false_r. reflexivity.
  - destruct (S2 fb (k + fb - 8)) as [-> ->]; try lia.
    rewrite (testbit_small b0 8) by (assumption || lia).
    rewrite N.shiftl_spec_high' by lia. cbn [orb]. f_equal. lia.
Qed.

(** The two bytes a store changes. *)
Definition rmw (l : list N) (k m w : N) : option (list N) :=
  a <- rd l k ;;
  l <- wr l k (N.ldiff a m) ;;
  a <- rd l k ;;
  wr l k (N.land (N.lor a w) 255).

Lemma dense_put_rmw l i v :
  dense_put l i v =
  (l' <- rmw l (i * 6 / 8) (N.shiftl REGISTER_MAX (N.land (i * 6) 7)) (N.shiftl v (N.land (i * 6) 7)) ;;
   rmw l' (i * 6 / 8 + 1) (N.shiftr REGISTER_MAX (8 - N.land (i * 6) 7))
       (N.shiftr v (8 - N.land (i * 6) 7))).
Proof.
  unfold dense_put, rmw.
  destruct (rd l (i * 6 / 8)); [|reflexivity]. destruct (wr l _ _) as [l1|]; [|reflexivity].
  destruct (rd l1 (i * 6 / 8)); [|reflexivity]. reflexivity.
Qed.

Lemma small_of_bits x n : (forall m, n <= m -> N.testbit x m = false) -> x < 2 ^ n.
Proof.
  intros A. assert (E : x = N.land x (N.ones n)).
  { apply N.bits_inj. intros m. rewrite N.land_spec. destruct (N.lt_ge_cases m n) as [L|L].
    - rewrite N.ones_spec_low by exact L. now rewrite andb_true_r.
    - rewrite A by exact L. reflexivity. }
  rewrite E, N.land_ones. apply N.mod_lt. apply N.pow_nonzero. lia.
Qed.

Lemma ldiff_small a m n : a < 2 ^ n -> N.ldiff a m < 2 ^ n.
Proof.
  intros A. apply small_of_bits. intros k K. rewrite N.ldiff_spec, (testbit_small a n k) by assumption.
  reflexivity.
Qed.

Lemma land255_small x : N.land x 255 < 256.
Proof. change 255 with (N.ones 8). rewrite N.land_ones. apply N.mod_lt. lia. Qed.

Lemma rmw_ok l k m w : bytes l -> k <= len l -> (k = len l -> N.land w 255 = 0) ->
  exists l', rmw l k m w = Some l' /\ bytes l' /\ length l' = length l /\
    forall n, nth n l' 0 =
      if (n =? N.to_nat k)%nat
      then N.land (N.lor (N.ldiff (nth (N.to_nat k) l 0) m) w) 255 else nth n l 0.
Proof.
  intros B L Z. unfold rmw. rewrite rd_ok by exact L.
  destruct (N.eq_dec k (len l)) as [E|E].
  - assert (O : nth (N.to_nat k) l 0 = 0) by (apply nth_overflow; unfold len in E; lia).
    rewrite O. rewrite N.ldiff_0_l.
    assert (W : wr l k 0 = Some l).
    { unfold wr. destruct (N.ltb_spec k (len l)); [lia|].
      rewrite (proj2 (N.eqb_eq k (len l)) E). reflexivity. }
    rewrite W, rd_ok by exact L. rewrite O, N.lor_0_l, (Z E), W.
    exists l. repeat split; auto. intros n.
    destruct (Nat.eqb_spec n (N.to_nat k)) as [->|]; [exact O|reflexivity].
  - assert (K : k < len l) by lia.
    rewrite wr_ok by exact K. set (l1 := upd l _ _).
    assert (L1 : len l1 = len l) by (unfold l1, len; now rewrite length_upd).
    rewrite rd_ok by lia. rewrite wr_ok by lia.
    assert (A1 : nth (N.to_nat k) l1 0 = N.ldiff (nth (N.to_nat k) l 0) m).
    { unfold l1. rewrite nth_upd, Nat.eqb_refl. cbn [andb].
      destruct (Nat.ltb_spec (N.to_nat k) (length l)); [reflexivity|]. unfold len in K. lia. }
    rewrite A1. eexists. split; [reflexivity|]. split; [|split].
    + apply Forall_upd; [|apply land255_small]. apply Forall_upd; [exact B|].
      apply (ldiff_small _ _ 8). apply nth_byte; exact B.
    + unfold l1. now rewrite !length_upd.
    + intros n. rewrite nth_upd.
      destruct (Nat.ltb_spec (N.to_nat k) (length l1)) as [W|W]; [|unfold len in *; lia].
      rewrite andb_true_r. destruct (Nat.eqb_spec n (N.to_nat k)) as [->|NE]; [reflexivity|].
      unfold l1. rewrite nth_upd. destruct (Nat.eqb_spec n (N.to_nat k)); [contradiction|reflexivity].
Qed.

Lemma max_bit k : N.testbit REGISTER_MAX k = (k <? 6).
Proof.
  unfold REGISTER_MAX. change 63 with (N.ones 6). destruct (N.ltb_spec k 6).
  - now apply N.ones_spec_low.
  - now apply N.ones_spec_high.
Qed.

Lemma byte_bit k x : k < 8 -> N.testbit (N.land x 255) k = N.testbit x k.
Proof.
  intros L. rewrite N.land_spec. change 255 with (N.ones 8). rewrite N.ones_spec_low by exact L.
  apply andb_true_r.
Qed.

Lemma dense_put_ok l i v : ok_dense l -> i < REGS -> v < 64 ->
  exists l', dense_put l i v = Some l' /\ ok_dense l' /\
    forall j, j < REGS -> dense_at l' j = if j =? i then v else dense_at l j.
Proof.
  intros [B L] I V. pose proof (len_eq _ _ L) as LL.
  rewrite dense_put_rmw. unfold ok_dense, REGS, DENSE_BYTES in *.
  destruct (position i) as (q & r & E & P).
  set (fb := N.land (i * 6) 7) in *. set (byte := i * 6 / 8) in *.
  assert (Hb : byte < 12288) by lia.
  assert (FB : fb = 0 \/ fb = 6 \/ fb = 4 \/ fb = 2) by (destruct P as [P|[P|[P|P]]]; lia).
  assert (LAST : byte = 12287 -> fb = 2) by (destruct P as [P|[P|[P|P]]]; lia).
  assert (POS : 6 * i = 8 * byte + fb) by (destruct P as [P|[P|[P|P]]]; lia).
  clearbody fb byte. clear P E q r.
  destruct (rmw_ok l byte (N.shiftl REGISTER_MAX fb) (N.shiftl v fb) B) as (l1 & -> & B1 & L1 & N1);
    [lia|lia|].
  assert (LL1 : len l1 = 12288) by (unfold len in *; lia).
  destruct (rmw_ok l1 (byte + 1) (N.shiftr REGISTER_MAX (8 - fb)) (N.shiftr v (8 - fb)) B1)
    as (l2 & -> & B2 & L2 & N2).
  { lia. }
  { intros E. rewrite LL1 in E. rewrite LAST by lia. change (8 - 2) with 6.
    rewrite N.shiftr_div_pow2. rewrite N.div_small by exact V. reflexivity. }
  exists l2. split; [reflexivity|]. split; [split; [exact B2|lia]|].
  assert (NB : forall n, nth n l2 0 =
     if (n =? N.to_nat byte)%nat
     then N.land (N.lor (N.ldiff (nth (N.to_nat byte) l 0) (N.shiftl REGISTER_MAX fb)) (N.shiftl v fb)) 255
     else if (n =? N.to_nat (byte + 1))%nat
     then N.land (N.lor (N.ldiff (nth (N.to_nat (byte + 1)) l 0) (N.shiftr REGISTER_MAX (8 - fb)))
                        (N.shiftr v (8 - fb))) 255
     else nth n l 0).
  { intros n. rewrite N2, !N1.
    destruct (Nat.eqb_spec (N.to_nat (byte + 1)) (N.to_nat byte)); [lia|].
    destruct (Nat.eqb_spec n (N.to_nat (byte + 1))); destruct (Nat.eqb_spec n (N.to_nat byte));
      try reflexivity; lia. }
  clear N1 N2 B1 L1 L2 LL1 l1.
  intros j J. apply N.bits_inj. intros k. rewrite dense_at_bits by exact B2.
  destruct (N.ltb_spec k 6) as [K|K].
  2:{ destruct (j =? i).
      - rewrite (testbit_small v 6 k) by assumption. reflexivity.
      - rewrite dense_at_bits by exact B. destruct (N.ltb_spec k 6); [lia|reflexivity]. }
  rewrite NB. clear NB.
  destruct (N.eqb_spec j i) as [->|NE].
  - (* the number stored *)
    destruct (N.lt_ge_cases (k + fb) 8) as [M|M].
    + assert (D : (6 * i + k) / 8 = byte) by (symmetry; apply N.div_unique with (k + fb); lia).
      assert (R : (6 * i + k) mod 8 = k + fb) by (symmetry; apply N.mod_unique with byte; lia).
      rewrite D, R, Nat.eqb_refl. rewrite byte_bit by lia.
      rewrite N.lor_spec, N.ldiff_spec, !N.shiftl_spec_high' by lia.
      replace (k + fb - fb) with k by lia. rewrite max_bit.
      destruct (N.ltb_spec k 6); [|lia]. cbn [negb]. rewrite andb_false_r. reflexivity.
    + assert (D : (6 * i + k) / 8 = byte + 1) by (symmetry; apply N.div_unique with (k + fb - 8); lia).
      assert (R : (6 * i + k) mod 8 = k + fb - 8) by (symmetry; apply N.mod_unique with (byte + 1); lia).
      rewrite D, R. destruct (Nat.eqb_spec (N.to_nat (byte + 1)) (N.to_nat byte)); [lia|].
      rewrite Nat.eqb_refl. rewrite byte_bit by lia.
      rewrite N.lor_spec, N.ldiff_spec, !N.shiftr_spec'.
      replace (k + fb - 8 + (8 - fb)) with k by lia. rewrite max_bit.
      destruct (N.ltb_spec k 6); [|lia]. cbn [negb]. rewrite andb_false_r. reflexivity.
  - (* another number *)
    rewrite dense_at_bits by exact B. destruct (N.ltb_spec k 6); [|lia].
    divmod (6 * j + k) 8.
    assert (FAR : 6 * j + k < 6 * i \/ 6 * i + 6 <= 6 * j + k) by lia.
    destruct (Nat.eqb_spec (N.to_nat q) (N.to_nat byte)) as [E|_].
    + apply N2Nat.inj in E. subst q. rewrite byte_bit by lia.
      rewrite N.lor_spec, N.ldiff_spec.
      destruct (N.lt_ge_cases r fb) as [Rf|Rf].
      * rewrite !N.shiftl_spec_low by exact Rf. rewrite orb_false_r. apply andb_true_r.
      * rewrite !N.shiftl_spec_high' by exact Rf. rewrite max_bit.
        destruct (N.ltb_spec (r - fb) 6); [lia|].
        rewrite (testbit_small v 6) by assumption. rewrite orb_false_r. apply andb_true_r.
    + destruct (Nat.eqb_spec (N.to_nat q) (N.to_nat (byte + 1))) as [E|_]; [|reflexivity].
      apply N2Nat.inj in E. subst q. rewrite byte_bit by lia.
      rewrite N.lor_spec, N.ldiff_spec, !N.shiftr_spec', max_bit.
      destruct (N.ltb_spec (r + (8 - fb)) 6); [lia|].
      rewrite (testbit_small v 6) by (assumption || lia). rewrite orb_false_r. apply andb_true_r.
Qed.

Lemma dense_max_ok l i v : ok_dense l -> i < REGS -> v < 64 ->
  exists l' ret, dense_set l i v = Some (ret, l') /\ ok_dense l' /\
    (dense_at l i < v -> ret = 1%Z) /\ (v <= dense_at l i -> ret = 0%Z /\ l' = l) /\
    forall j, j < REGS -> dense_at l' j = if j =? i then N.max (dense_at l i) v else dense_at l j.
Proof.
  intros D I V. unfold dense_set. rewrite dense_get_ok by assumption.
  destruct (N.ltb_spec (dense_at l i) v) as [W|W].
  - destruct (dense_put_ok l i v D I V) as (l' & -> & D' & A). exists l', 1%Z.
    split; [reflexivity|]. split; [exact D'|]. split; [auto|]. split; [lia|].
    intros j J. rewrite (A j J). destruct (j =? i); [lia|reflexivity].
  - exists l, 0%Z. split; [reflexivity|]. split; [exact D|]. split; [lia|]. split; [auto|].
    intros j J. destruct (N.eqb_spec j i) as [->|]; [lia|reflexivity].
Qed.

Lemma zeros_dense : ok_dense (repeat 0 (N.to_nat DENSE_BYTES)).
Proof.
  split; [|apply repeat_length]. apply Forall_forall. intros x X. apply repeat_spec in X. lia.
Qed.

Lemma nth_zeros n m : nth m (repeat 0 n) 0 = 0.
Proof. revert m; induction n; destruct m; cbn; auto. Qed.

Lemma le_zeros n : little_endian (repeat 0 n) = 0.
Proof. induction n; cbn [repeat little_endian]; [reflexivity|]. rewrite IHn. reflexivity. Qed.

Lemma zeros_at n i : dense_at (repeat 0 n) i = 0.
Proof.
  unfold dense_at. rewrite le_zeros, N.div_0_l; [reflexivity|]. apply N.pow_nonzero. lia.
Qed.

(** The loop over the numbers, when every turn sets one number to the maximum. *)
Section Loops.
  Context {A : Type}.
  Variable ok : A -> Prop.
  Variable at_ : A -> N -> N.
  Variable f : A -> N -> option A.
  Variable val : N -> N.
  Hypothesis step : forall a j, ok a -> j < REGS ->
    exists a', f a j = Some a' /\ ok a' /\
      forall i, i < REGS -> at_ a' i = if i =? j then N.max (at_ a j) (val j) else at_ a i.

  Lemma loop_max n : forall j a, ok a -> j + N.of_nat n <= REGS ->
    exists a', loop n j f a = Some a' /\ ok a' /\
      forall i, i < REGS ->
        at_ a' i = if (j <=? i) && (i <? j + N.of_nat n) then N.max (at_ a i) (val i) else at_ a i.
  Proof.
    induction n as [|n IH]; intros j a O J; cbn [loop].
    - exists a. split; [reflexivity|]. split; [exact O|]. intros i I0.
      destruct (N.leb_spec j i); destruct (N.ltb_spec i (j + N.of_nat 0)); cbn [andb]; try reflexivity. lia.
    - destruct (step a j O) as (a1 & -> & O1 & A1); [lia|].
      destruct (IH (j + 1) a1 O1) as (a2 & -> & O2 & A2); [lia|].
      exists a2. split; [reflexivity|]. split; [exact O2|]. intros i I0. rewrite (A2 i I0), (A1 i I0).
      destruct (N.eqb_spec i j) as [->|NE].
      + destruct (N.leb_spec (j + 1) j); [lia|]. destruct (N.leb_spec j j); [|lia].
        destruct (N.ltb_spec j (j + N.of_nat (S n))); [reflexivity|lia].
      + destruct (N.leb_spec (j + 1) i); destruct (N.leb_spec j i);
          destruct (N.ltb_spec i (j + 1 + N.of_nat n)); destruct (N.ltb_spec i (j + N.of_nat (S n)));
          cbn [andb]; try reflexivity; lia.
  Qed.

  Lemma all_max a : ok a ->
    exists a', all_regs f a = Some a' /\ ok a' /\
      forall i, i < REGS -> at_ a' i = N.max (at_ a i) (val i).
  Proof.
    intros O. unfold all_regs. destruct (loop_max (N.to_nat REGS) 0 a O) as (a' & -> & O' & A').
    { rewrite N2Nat.id. lia. }
    exists a'. split; [reflexivity|]. split; [exact O'|]. intros i I0. rewrite (A' i I0).
    rewrite N2Nat.id. destruct (N.leb_spec 0 i); [|lia]. destruct (N.ltb_spec i (0 + REGS)); [reflexivity|lia].
  Qed.
End Loops.

(** An array with one byte for each number. *)
Definition ok_raw (l : list N) :=
  bytes l /\ length l = N.to_nat REGS /\ Forall (fun b => b < 64) l.
Definition raw_at (l : list N) (i : N) : N := nth (N.to_nat i) l 0.

Lemma raw_small l i : ok_raw l -> raw_at l i < 64.
Proof.
  intros (_ & _ & F). unfold raw_at. destruct (Nat.lt_ge_cases (N.to_nat i) (length l)) as [L|L].
  - exact (proj1 (Forall_forall _ _) F _ (nth_In _ _ L)).
  - rewrite nth_overflow by exact L. lia.
Qed.

Lemma rd_raw l i : ok_raw l -> i < REGS -> rd l i = Some (raw_at l i).
Proof. intros (_ & L & _) I. apply len_eq in L. apply rd_ok. lia. Qed.

Lemma raw_upd l i v j : ok_raw l -> i < REGS -> raw_at (upd l (N.to_nat i) v) j = if j =? i then v else raw_at l j.
Proof.
  intros (_ & L & _) I. unfold raw_at. rewrite nth_upd.
  destruct (Nat.ltb_spec (N.to_nat i) (length l)) as [W|W]; [|lia]. rewrite andb_true_r.
  destruct (N.eqb_spec j i) as [->|NE]; [now rewrite Nat.eqb_refl|].
  destruct (Nat.eqb_spec (N.to_nat j) (N.to_nat i)); [lia|reflexivity].
Qed.

Lemma raw_upd_ok l i v : ok_raw l -> v < 64 -> ok_raw (upd l i v).
Proof.
  intros (B & L & F) V. split; [apply Forall_upd; [exact B|lia]|]. split; [now rewrite length_upd|].
  now apply Forall_upd.
Qed.

Lemma raw_max_ok l i v : ok_raw l -> i < REGS -> v < 64 ->
  exists l', raw_max l i v = Some l' /\ ok_raw l' /\
    forall j, j < REGS -> raw_at l' j = if j =? i then N.max (raw_at l i) v else raw_at l j.
Proof.
  intros R I V. unfold raw_max. rewrite rd_raw by assumption.
  destruct (N.ltb_spec (raw_at l i) v) as [W|W].
  - pose proof R as (_ & L & _). apply len_eq in L. rewrite wr_ok by lia. eexists. split; [reflexivity|].
    split; [now apply raw_upd_ok|]. intros j J. rewrite raw_upd by assumption.
    destruct (j =? i); [lia|reflexivity].
  - exists l. split; [reflexivity|]. split; [exact R|]. intros j J.
    destruct (N.eqb_spec j i) as [->|]; [lia|reflexivity].
Qed.

Lemma zeros_raw : ok_raw (repeat 0 (N.to_nat REGS)).
Proof.
  split; [|split; [apply repeat_length|]]; apply Forall_forall; intros x X; apply repeat_spec in X; lia.
Qed.

Lemma zeros_raw_at n i : raw_at (repeat 0 n) i = 0.
Proof. apply nth_zeros. Qed.
