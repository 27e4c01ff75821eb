(* Byte strings shared by all models: a byte is a Z in [0,256), a byte string is
   a list of bytes.  Nothing here models a particular function of the code
   except [bcompare], which is what rocksdb::Slice::compare, memcmp and
   std::string::compare compute. *)
From Coq Require Export ZArith List Lia Bool.
From Coq Require Export ZifyBool ZifyNat.
Export ListNotations.
Local Open Scope Z_scope.

Ltac Zify.zify_post_hook ::= Z.div_mod_to_equations.

Definition is_byte (b : Z) : Prop := 0 <= b < 256.
Definition bytes_ok (s : list Z) : Prop := Forall is_byte s.

(* lexicographic comparison of byte strings, a proper prefix being smaller *)
Fixpoint bcompare (a b : list Z) : comparison :=
  match a, b with
  | [], [] => Eq
  | [], _ :: _ => Lt
  | _ :: _, [] => Gt
  | x :: a', y :: b' =>
      match x ?= y with Eq => bcompare a' b' | c => c end
  end.

(* value of a big-endian byte string *)
Definition be_val (s : list Z) : Z := fold_left (fun acc b => acc * 256 + b) s 0.

(* n-byte big-endian representation of v (taken modulo 256^n) *)
Fixpoint be_bytes (n : nat) (v : Z) : list Z :=
  match n with
  | O => []
  | S n' => (v / 256 ^ Z.of_nat n') mod 256 :: be_bytes n' v
  end.

(* n-byte little-endian representation *)
Fixpoint le_bytes (n : nat) (v : Z) : list Z :=
  match n with
  | O => []
  | S n' => v mod 256 :: le_bytes n' (v / 256)
  end.

Fixpoint le_val (s : list Z) : Z :=
  match s with [] => 0 | b :: s' => b + 256 * le_val s' end.

Lemma bcompare_refl a : bcompare a a = Eq.
Proof. induction a as [|x a IH]; cbn; [reflexivity|]. rewrite Z.compare_refl. exact IH. Qed.

Lemma bcompare_eq a b : bcompare a b = Eq <-> a = b.
Proof.
  split; [|intros ->; apply bcompare_refl].
  revert b; induction a as [|x a IH]; intros [|y b]; cbn; try discriminate; [reflexivity|].
  destruct (Z.compare_spec x y); try discriminate. intros E. subst. f_equal. auto.
Qed.

Lemma bcompare_antisym a b : bcompare b a = CompOpp (bcompare a b).
Proof.
  revert b; induction a as [|x a IH]; intros [|y b]; cbn; try reflexivity.
  rewrite (Z.compare_antisym x y). destruct (x ?= y); cbn; auto.
Qed.

Lemma bcompare_lt_trans a b c : bcompare a b = Lt -> bcompare b c = Lt -> bcompare a c = Lt.
Proof.
  revert b c; induction a as [|x a IH]; intros [|y b] [|z c]; cbn; try discriminate; auto.
  destruct (Z.compare_spec x y), (Z.compare_spec y z); try discriminate; intros H1 H2; subst.
  - rewrite Z.compare_refl. eauto.
  - destruct (Z.compare_spec y z); auto; lia.
  - destruct (Z.compare_spec x z); auto; lia.
  - destruct (Z.compare_spec x z); auto; lia.
Qed.

Lemma bcompare_app_same p a b : bcompare (p ++ a) (p ++ b) = bcompare a b.
Proof. induction p as [|x p IH]; cbn; [reflexivity|]. rewrite Z.compare_refl. exact IH. Qed.

(* comparing concatenations of equal-length heads *)
Lemma bcompare_app_len a b s t :
  length a = length b ->
  bcompare (a ++ s) (b ++ t) = match bcompare a b with Eq => bcompare s t | c => c end.
Proof.
  revert b; induction a as [|x a IH]; intros [|y b]; cbn; try discriminate; [reflexivity|].
  intros H. destruct (x ?= y); auto.
Qed.

Lemma be_bytes_length n v : length (be_bytes n v) = n.
Proof. induction n as [|n IH]; cbn [be_bytes length]; auto. Qed.

Lemma le_bytes_length n v : length (le_bytes n v) = n.
Proof. revert v; induction n as [|n IH]; intros v; cbn [le_bytes length]; auto. Qed.

Lemma be_bytes_ok n v : bytes_ok (be_bytes n v).
Proof.
  induction n as [|n IH]; cbn [be_bytes]; constructor; [|exact IH].
  unfold is_byte. apply Z.mod_pos_bound. lia.
Qed.

Lemma le_bytes_ok n v : bytes_ok (le_bytes n v).
Proof.
  revert v; induction n as [|n IH]; intros v; cbn [le_bytes]; constructor; [|apply IH].
  unfold is_byte. apply Z.mod_pos_bound. lia.
Qed.

Lemma pow256_succ n : 256 ^ Z.of_nat (S n) = 256 * 256 ^ Z.of_nat n.
Proof. rewrite Nat2Z.inj_succ, Z.pow_succ_r by lia. reflexivity. Qed.

Lemma pow256_pos n : 0 < 256 ^ Z.of_nat n.
Proof. apply Z.pow_pos_nonneg; lia. Qed.

(* big-endian strings of the same width compare as the numbers *)
Lemma be_bytes_mod n v : be_bytes n v = be_bytes n (v mod 256 ^ Z.of_nat n).
Proof.
  assert (G : forall m, (n <= m)%nat -> be_bytes n v = be_bytes n (v mod 256 ^ Z.of_nat m)).
  { induction n as [|n IH]; intros m Hm; cbn [be_bytes]; [reflexivity|]. f_equal.
    - pose proof (pow256_pos n).
      replace m with (S n + (m - S n))%nat by lia.
      rewrite Nat2Z.inj_add, Z.pow_add_r, pow256_succ by lia.
      set (p := 256 ^ Z.of_nat n) in *. set (q := 256 ^ Z.of_nat (m - S n)).
      assert (0 < q) by apply pow256_pos.
      rewrite (Z.mul_comm 256 p), <- Z.mul_assoc.
      rewrite Z.rem_mul_r by lia.
      rewrite (Z.mul_comm p), Z.div_add by lia.
      rewrite Z.div_small with (a := v mod p) by (apply Z.mod_pos_bound; lia).
      rewrite Z.add_0_l. rewrite Z.rem_mul_r by lia.
      rewrite (Z.mul_comm 256), Z.mod_add by lia. rewrite Z.mod_mod by lia. reflexivity.
    - apply IH. lia. }
  apply G. lia.
Qed.

Lemma bcompare_be n u v :
  0 <= u < 256 ^ Z.of_nat n -> 0 <= v < 256 ^ Z.of_nat n ->
  bcompare (be_bytes n u) (be_bytes n v) = (u ?= v).
Proof.
  revert u v; induction n as [|n IH]; intros u v Hu Hv.
  - cbn in *. destruct (Z.compare_spec u v); auto; lia.
  - cbn [be_bytes bcompare]. rewrite pow256_succ in Hu, Hv.
    pose proof (pow256_pos n) as Hp.
    rewrite (be_bytes_mod n u), (be_bytes_mod n v).
    set (p := 256 ^ Z.of_nat n) in *.
    assert (Hmu := Z.mod_pos_bound u p Hp). assert (Hmv := Z.mod_pos_bound v p Hp).
    rewrite IH by lia.
    assert (Hdu : 0 <= u / p < 256) by (split; [apply Z.div_pos; lia | apply Z.div_lt_upper_bound; lia]).
    assert (Hdv : 0 <= v / p < 256) by (split; [apply Z.div_pos; lia | apply Z.div_lt_upper_bound; lia]).
    rewrite (Z.mod_small (u / p)), (Z.mod_small (v / p)) by lia.
    pose proof (Z.div_mod u p ltac:(lia)) as Eu. pose proof (Z.div_mod v p ltac:(lia)) as Ev.
    set (du := u / p) in *. set (dv := v / p) in *. set (mu := u mod p) in *. set (mv := v mod p) in *.
    destruct (Z.compare_spec du dv) as [E|L|G].
    + rewrite E in Eu. destruct (Z.compare_spec mu mv), (Z.compare_spec u v); auto; lia.
    + destruct (Z.compare_spec u v); auto; nia.
    + destruct (Z.compare_spec u v); auto; nia.
Qed.

Lemma be_val_app s t : be_val (s ++ t) = be_val s * 256 ^ Z.of_nat (length t) + be_val t.
Proof.
  unfold be_val. rewrite fold_left_app. generalize (fold_left (fun acc b => acc * 256 + b) s 0).
  induction t as [|b t IH]; intros z; cbn [fold_left length].
  - cbn. lia.
  - rewrite IH. rewrite (IH (0 * 256 + b)). rewrite pow256_succ. lia.
Qed.

Lemma be_val_cons b t : be_val (b :: t) = b * 256 ^ Z.of_nat (length t) + be_val t.
Proof. change (b :: t) with ([b] ++ t). rewrite be_val_app. cbn. lia. Qed.

Lemma be_val_be_bytes n v : be_val (be_bytes n v) = v mod 256 ^ Z.of_nat n.
Proof.
  induction n as [|n IH]; [cbn; rewrite Z.mod_1_r; reflexivity|].
  cbn [be_bytes]. rewrite be_val_cons, be_bytes_length, IH, pow256_succ.
  pose proof (pow256_pos n). rewrite (Z.mul_comm 256). rewrite Z.rem_mul_r by lia. lia.
Qed.

Lemma be_val_bound s : bytes_ok s -> 0 <= be_val s < 256 ^ Z.of_nat (length s).
Proof.
  induction 1 as [|b s Hb Hs IH]; [cbn; lia|].
  rewrite be_val_cons. cbn [length]. rewrite pow256_succ. unfold is_byte in Hb. nia.
Qed.

Lemma be_bytes_be_val s : bytes_ok s -> be_bytes (length s) (be_val s) = s.
Proof.
  induction 1 as [|b s Hb Hs IH]; [reflexivity|].
  cbn [length be_bytes]. rewrite be_val_cons. pose proof (pow256_pos (length s)) as Hp.
  pose proof (be_val_bound s Hs) as Hv. unfold is_byte in Hb. f_equal.
  - rewrite Z.div_add_l by lia. rewrite Z.div_small by lia. rewrite Z.add_0_r. apply Z.mod_small. lia.
  - rewrite be_bytes_mod. rewrite Z.add_comm, Z.mod_add by lia. rewrite Z.mod_small by lia. exact IH.
Qed.

Lemma le_val_le_bytes n v : le_val (le_bytes n v) = v mod 256 ^ Z.of_nat n.
Proof.
  revert v; induction n as [|n IH]; intros v; [cbn; rewrite Z.mod_1_r; reflexivity|].
  cbn [le_bytes le_val]. rewrite IH, pow256_succ. pose proof (pow256_pos n).
  rewrite Z.rem_mul_r by lia. lia.
Qed.

(* the i-th byte (from the least significant) read off both representations *)
Lemma rev_le_be n v : rev (le_bytes n v) = be_bytes n v.
Proof.
  revert v; induction n as [|n IH]; intros v; [reflexivity|].
  cbn [le_bytes rev]. rewrite IH. clear IH.
  assert (G : forall m, be_bytes m (v / 256) ++ [v mod 256] = be_bytes (S m) v).
  { induction m as [|m IHm].
    - cbn. rewrite Z.div_1_r. reflexivity.
    - cbn [be_bytes app] in *. rewrite IHm. f_equal.
      rewrite Z.div_div by (pose proof (pow256_pos m); lia). rewrite pow256_succ. reflexivity. }
  apply G.
Qed.
