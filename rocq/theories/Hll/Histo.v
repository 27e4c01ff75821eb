(** The histogram from which the estimate is made is that of the numbers of the
    sketch, in every encoding. *)
From Coq Require Import NArith ZArith List Bool Lia.
From Verif.Hll Require Import Spec Model Dense Sparse Ops.
Import ListNotations.
Open Scope N_scope.

Definition hist_of (f : N -> N) (k : nat) : list N :=
  map (fun v => count_upto f (N.of_nat v) k) (seq 0 64).

Lemma count_run f v w n k : (forall i, (k <= i < k + n)%nat -> f (N.of_nat i) = w) ->
  count_upto f v (k + n) = count_upto f v k + (if w =? v then N.of_nat n else 0).
Proof.
  induction n as [|n IH]; intros A.
  - rewrite Nat.add_0_r. destruct (w =? v); lia.
  - rewrite Nat.add_succ_r. cbn [count_upto]. rewrite IH by (intros i Hi; apply A; lia).
    rewrite (A (k + n)%nat) by lia. destruct (w =? v); lia.
Qed.

Lemma nth_hist f k m : (m < 64)%nat -> nth m (hist_of f k) 0 = count_upto f (N.of_nat m) k.
Proof.
  intros L. unfold hist_of.
  rewrite nth_indep with (d' := (fun v => count_upto f (N.of_nat v) k) 0%nat)
    by (rewrite map_length, seq_length; exact L).
  rewrite (map_nth (fun v => count_upto f (N.of_nat v) k)). now rewrite seq_nth.
Qed.

Lemma length_hist f k : length (hist_of f k) = 64%nat.
Proof. unfold hist_of. now rewrite map_length, seq_length. Qed.

Lemma bump_ok f k n v : v < 64 ->
  (forall i, (k <= i < k + N.to_nat n)%nat -> f (N.of_nat i) = v) ->
  bump n v (Some (hist_of f k)) = Some (hist_of f (k + N.to_nat n)).
Proof.
  intros V A. unfold bump. destruct (N.ltb_spec v 64); [|lia]. f_equal.
  apply nth_ext with (d := 0) (d' := 0); [rewrite length_upd, !length_hist; reflexivity|].
  intros m M. rewrite length_upd, length_hist in M. rewrite nth_upd, length_hist.
  rewrite (nth_hist f (k + N.to_nat n) m M), (count_run f _ v _ _ A), N2Nat.id.
  rewrite !nth_hist by lia. rewrite N2Nat.id.
  destruct (Nat.ltb_spec (N.to_nat v) 64); [|lia]. rewrite andb_true_r.
  destruct (Nat.eqb_spec m (N.to_nat v)) as [->|NE].
  - rewrite N2Nat.id, N.eqb_refl. reflexivity.
  - destruct (N.eqb_spec v (N.of_nat m)); [lia|]. lia.
Qed.

Lemma fold_bump f vs : forall k,
  (forall m, (m < length vs)%nat -> nth m vs 0 = f (N.of_nat (k + m)) /\ nth m vs 0 < 64) ->
  fold_left (fun a v => bump 1 v a) vs (Some (hist_of f k)) = Some (hist_of f (k + length vs)).
Proof.
  induction vs as [|v t IH]; intros k A; cbn [fold_left length].
  - now rewrite Nat.add_0_r.
  - destruct (A 0%nat) as [E L]; [cbn; lia|]. cbn [nth] in E, L. rewrite Nat.add_0_r in E.
    rewrite (bump_ok f k 1 v L).
    + change (N.to_nat 1) with 1%nat. rewrite IH.
      * f_equal. f_equal. lia.
      * intros m M. destruct (A (S m)) as [E' L']; [cbn [length]; lia|]. cbn [nth] in E', L'.
        split; [|exact L']. rewrite E'. f_equal. f_equal. lia.
    + intros i Hi. change (N.to_nat 1) with 1%nat in Hi. replace i with k by lia. symmetry. exact E.
Qed.

Lemma sparse_histo_ok f l rs : wf l rs -> forall k,
  (forall i, i < total rs -> f (N.of_nat k + i) = rat rs i) ->
  sparse_histo l (Some (hist_of f k)) = Some (hist_of f (k + N.to_nat (total rs))).
Proof.
  induction 1 as [|b t rs B W IH|b c t rs B C W IH|b t rs B W IH]; intros k A; cbn [sparse_histo].
  - cbn [total]. now rewrite Nat.add_0_r.
  - destruct (zero_byte b B) as (-> & _ & _ & ->). cbn [total snd] in *. rewrite bump_ok.
    + rewrite IH.
      * f_equal. f_equal. lia.
      * intros i Hi. specialize (A (b + 1 + i) ltac:(lia)). cbn [rat fst snd] in A.
        destruct (N.ltb_spec (b + 1 + i) (b + 1)); [lia|].
        replace (b + 1 + i - (b + 1)) with i in A by lia. rewrite <- A. f_equal. lia.
    + lia.
    + intros i Hi. specialize (A (N.of_nat i - N.of_nat k) ltac:(lia)). cbn [rat fst snd] in A.
      destruct (N.ltb_spec (N.of_nat i - N.of_nat k) (b + 1)); [|lia]. rewrite <- A. f_equal. lia.
  - destruct (xzero_byte b c B C) as (-> & -> & _ & ->). cbn [total snd rat fst] in *.
    set (n := (b - 64) * 256 + c + 1) in *. clearbody n. rewrite bump_ok.
    + rewrite IH.
      * f_equal. f_equal. lia.
      * intros i Hi. specialize (A (n + i) ltac:(lia)).
        destruct (N.ltb_spec (n + i) n); [lia|].
        replace (n + i - n) with i in A by lia. rewrite <- A. f_equal. lia.
    + lia.
    + intros i Hi. specialize (A (N.of_nat i - N.of_nat k) ltac:(lia)).
      destruct (N.ltb_spec (N.of_nat i - N.of_nat k) n); [|lia]. rewrite <- A. f_equal. lia.
  - destruct (val_byte b B) as (-> & -> & _ & -> & ->). cbn [total snd rat fst] in *.
    destruct (val_ranges b B) as [RV RN].
    set (n := (b - 128) mod 4 + 1) in *. set (v := (b - 128) / 4 + 1) in *. clearbody n v. rewrite bump_ok.
    + rewrite IH.
      * f_equal. f_equal. lia.
      * intros i Hi. specialize (A (n + i) ltac:(lia)).
        destruct (N.ltb_spec (n + i) n); [lia|].
        replace (n + i - n) with i in A by lia. rewrite <- A. f_equal. lia.
    + lia.
    + intros i Hi. specialize (A (N.of_nat i - N.of_nat k) ltac:(lia)).
      destruct (N.ltb_spec (N.of_nat i - N.of_nat k) n); [|lia]. rewrite <- A. f_equal. lia.
Qed.

Lemma nth_skip (l : list N) a m : nth m (skipn a l) 0 = nth (a + m) l 0.
Proof.
  revert a; induction l as [|b t IH]; intros a.
  - rewrite skipn_nil. destruct m; destruct a; reflexivity.
  - destruct a; cbn [skipn plus nth]; [reflexivity|apply IH].
Qed.

Lemma skip_skip (l : list N) a b : skipn a (skipn b l) = skipn (b + a) l.
Proof.
  revert b; induction l as [|x t IH]; intros b.
  - now rewrite !skipn_nil.
  - destruct b; cbn [skipn plus]; [reflexivity|apply IH].
Qed.

Lemma drop_high x y p : 6 <= p -> N.land (N.lor x (N.shiftl y p)) 63 = N.land x 63.
Proof.
  intros P. apply N.bits_inj. intros k. rewrite !N.land_spec, N.lor_spec. change 63 with (N.ones 6).
  destruct (N.lt_ge_cases k 6) as [L|L].
  - rewrite N.shiftl_spec_low by lia. now rewrite orb_false_r.
  - rewrite N.ones_spec_high by exact L. now rewrite !andb_false_r.
Qed.

Lemma at_bytes l i c fb : ok_dense l -> i < REGS -> i * 6 = 8 * c + fb -> fb < 8 ->
  dense_at l i = N.land (N.lor (N.shiftr (nth (N.to_nat c) l 0) fb)
                               (N.shiftl (nth (N.to_nat (c + 1)) l 0) (8 - fb))) 63.
Proof.
  intros O I E F. pose proof (dense_get_ok l i O I) as G. unfold dense_get in G.
  assert (Ec : i * 6 / 8 = c) by (symmetry; apply N.div_unique with fb; lia).
  assert (Ef : N.land (i * 6) 7 = fb).
  { change 7 with (N.ones 3). rewrite N.land_ones. symmetry. apply N.mod_unique with c; lia. }
  rewrite Ec, Ef in G. destruct O as [B L]. apply len_eq in L. unfold REGS, DENSE_BYTES in *.
  rewrite !rd_ok in G by lia. injection G as G. symmetry. exact G.
Qed.

Lemma sixteen_ok l j : ok_dense l -> (16 * j + 16 <= N.to_nat REGS)%nat ->
  forall m, (m < 16)%nat -> nth m (sixteen (skipn (12 * j) l)) 0 = dense_at l (N.of_nat (16 * j + m)).
Proof.
  intros O J m M. unfold sixteen. rewrite !nth_skip.
  assert (K : forall e c fb, (e < 16)%nat -> 6 * N.of_nat e = 8 * N.of_nat c + fb -> fb < 8 ->
     dense_at l (N.of_nat (16 * j + e)) =
     N.land (N.lor (N.shiftr (nth (12 * j + c) l 0) fb) (N.shiftl (nth (12 * j + S c) l 0) (8 - fb))) 63).
  { intros e c fb Le Ee Lf. rewrite (at_bytes l _ (N.of_nat (12 * j + c)) fb O); [|unfold REGS in *; lia|lia|exact Lf].
    rewrite Nat2N.id. replace (N.to_nat (N.of_nat (12 * j + c) + 1)) with (12 * j + S c)%nat by lia. reflexivity. }
  assert (Z0 : forall e c, (e < 16)%nat -> 6 * N.of_nat e = 8 * N.of_nat c ->
     N.land (nth (12 * j + c) l 0) 63 = dense_at l (N.of_nat (16 * j + e))).
  { intros e c Le Ee. rewrite (K e c 0 Le) by lia. rewrite drop_high by lia. now rewrite N.shiftr_0_r. }
  assert (Z2 : forall e c, (e < 16)%nat -> 6 * N.of_nat e = 8 * N.of_nat c + 2 ->
     N.land (N.shiftr (nth (12 * j + c) l 0) 2) 63 = dense_at l (N.of_nat (16 * j + e))).
  { intros e c Le Ee. rewrite (K e c 2 Le) by lia. rewrite drop_high by lia. reflexivity. }
  do 16 (destruct m as [|m]; [cbn [nth]; first
    [apply Z0; lia | apply Z2; lia | symmetry; eapply (K _ _ 6); lia | symmetry; eapply (K _ _ 4); lia]|]).
  lia.
Qed.

Lemma dense_histo_ok l n : ok_dense l -> forall j, (16 * (j + n) <= N.to_nat REGS)%nat ->
  dense_histo n (skipn (12 * j) l) (Some (hist_of (dense_at l) (16 * j))) =
  Some (hist_of (dense_at l) (16 * (j + n))).
Proof.
  intros O. induction n as [|n IH]; intros j J; cbn [dense_histo].
  - now rewrite Nat.add_0_r.
  - rewrite (fold_bump (dense_at l)).
    + change (length (sixteen (skipn (12 * j) l))) with 16%nat. rewrite skip_skip.
      replace (12 * j + 12)%nat with (12 * S j)%nat by lia. replace (16 * j + 16)%nat with (16 * S j)%nat by lia.
      rewrite IH by lia. f_equal. f_equal. lia.
    + change (length (sixteen (skipn (12 * j) l))) with 16%nat. intros m M.
      rewrite (sixteen_ok l j O ltac:(lia) m M). split; [reflexivity|apply dense_at_small].
Qed.

Lemma row_histo_ok l n : ok_raw l -> forall j, (8 * (j + n) <= N.to_nat REGS)%nat ->
  row_histo n (skipn (8 * j) l) (Some (hist_of (raw_at l) (8 * j))) =
  Some (hist_of (raw_at l) (8 * (j + n))).
Proof.
  intros O. induction n as [|n IH]; intros j J; cbn [row_histo].
  - now rewrite Nat.add_0_r.
  - assert (LEN : length (firstn 8 (skipn (8 * j) l)) = 8%nat).
    { rewrite firstn_length, skipn_length. destruct O as (_ & L & _). lia. }
    assert (NTH : forall m, (m < 8)%nat -> nth m (firstn 8 (skipn (8 * j) l)) 0 = raw_at l (N.of_nat (8 * j + m))).
    { intros m M. unfold raw_at. rewrite Nat2N.id, <- nth_skip.
      rewrite <- (firstn_skipn 8 (skipn (8 * j) l)) at 2. rewrite app_nth1 by lia. reflexivity. }
    assert (STEP : (if forallb (fun b => b =? 0) (firstn 8 (skipn (8 * j) l))
        then bump 8 0 (Some (hist_of (raw_at l) (8 * j)))
        else fold_left (fun a v => bump 1 v a) (firstn 8 (skipn (8 * j) l)) (Some (hist_of (raw_at l) (8 * j))))
        = Some (hist_of (raw_at l) (8 * S j))).
    { destruct (forallb _ _) eqn:Z.
      - rewrite bump_ok; [f_equal; f_equal; lia|lia|]. intros i Hi.
        replace i with (8 * j + (i - 8 * j))%nat by lia. rewrite <- NTH by lia.
        rewrite forallb_forall in Z. apply N.eqb_eq. apply Z. apply nth_In. lia.
      - rewrite (fold_bump (raw_at l)); [rewrite LEN; f_equal; f_equal; lia|]. rewrite LEN. intros m M.
        rewrite (NTH m M). split; [reflexivity|now apply raw_small]. }
    rewrite STEP, skip_skip. replace (8 * j + 8)%nat with (8 * S j)%nat by lia.
    rewrite IH by lia. f_equal. f_equal. lia.
Qed.

Lemma count_ext f g v n : (forall i, i < N.of_nat n -> f i = g i) -> count_upto f v n = count_upto g v n.
Proof.
  induction n as [|n IH]; intros A; cbn [count_upto]; [reflexivity|].
  rewrite IH by (intros i Hi; apply A; lia). rewrite A by lia. reflexivity.
Qed.

Lemma histogram_ext h h' : regs_eq h h' -> histogram h' = histogram h.
Proof.
  intros R. unfold histogram. apply map_ext. intros v. apply count_ext. intros i Hi. apply R. unfold REGS. lia.
Qed.

Lemma hist_zero f : hist_of f 0 = repeat 0 64.
Proof. reflexivity. Qed.

Lemma reghisto_ok h : valid h -> reghisto h = Some (histogram h).
Proof.
  intros V. unfold reghisto, histogram. change (map _ (seq 0 64)) with (hist_of (reg h) (N.to_nat 16384)).
  destruct (enc_cases h V) as [D|[D|D]]; rewrite D; cbn [N.eqb DENSE RAW SPARSE Pos.eqb];
    rewrite <- (hist_zero (reg h)).
  - assert (E : forall k, hist_of (reg h) k = hist_of (dense_at (body h)) k).
    { intros k. unfold hist_of. apply map_ext. intros v. apply count_ext. intros i _. now apply reg_dense. }
    rewrite !E. pose proof (dense_histo_ok (body h) (N.to_nat 1024) (dense_ok h V D) 0%nat) as P.
    rewrite !Nat.mul_0_r, Nat.add_0_l in P. cbn [skipn] in P.
    replace (16 * N.to_nat 1024)%nat with (N.to_nat 16384) in P by lia. apply P. unfold REGS. lia.
  - assert (E : forall k, hist_of (reg h) k = hist_of (raw_at (body h)) k).
    { intros k. unfold hist_of. apply map_ext. intros v. apply count_ext. intros i _. now apply reg_raw. }
    rewrite !E. pose proof (row_histo_ok (body h) (N.to_nat 2048) (raw_ok h V D) 0%nat) as P.
    rewrite !Nat.mul_0_r, Nat.add_0_l in P. cbn [skipn] in P.
    replace (8 * N.to_nat 2048)%nat with (N.to_nat 16384) in P by lia. apply P. unfold REGS. lia.
  - destruct (sparse_ok h V D) as (rs & W & T & R).
    rewrite (sparse_histo_ok (reg h) _ _ W 0%nat).
    + rewrite T. reflexivity.
    + intros i Hi. rewrite N.add_0_l. apply R.
Qed.
