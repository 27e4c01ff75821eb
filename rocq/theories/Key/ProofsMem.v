From Verif.Common Require Import Bytes.
From Verif.Key Require Import Model Spec ProofsWord.
Local Open Scope Z_scope.

Definition byt (v i : Z) : Z := Z.land (Z.shiftr v i) 255.

Lemma byt_div v i : 0 <= i -> byt v i = (v / 2 ^ i) mod 256.
Proof. intros. symmetry. apply byte_at. assumption. Qed.

Lemma le1 v : le_bytes 1 v = [byt v 0].
Proof. cbn [le_bytes]. rewrite byt_div by lia. change (2^0) with 1. rewrite Z.div_1_r. reflexivity. Qed.
Lemma be1 v : be_bytes 1 v = [byt v 0].
Proof. cbn [be_bytes]. rewrite byt_div by lia. reflexivity. Qed.

Lemma le2 v : le_bytes 2 v = [byt v 0; byt v 8].
Proof.
  cbn [le_bytes]. rewrite !byt_div by lia.
  change (2^0) with 1. change (2^8) with 256. rewrite Z.div_1_r. reflexivity.
Qed.
Lemma be2 v : be_bytes 2 v = [byt v 8; byt v 0].
Proof. cbn [be_bytes]. rewrite !byt_div by lia. reflexivity. Qed.

Lemma le4 v : le_bytes 4 v = [byt v 0; byt v 8; byt v 16; byt v 24].
Proof.
  cbn [le_bytes]. rewrite !byt_div by lia. rewrite !Z.div_div by lia.
  change (2^0) with 1. rewrite Z.div_1_r. reflexivity.
Qed.
Lemma be4 v : be_bytes 4 v = [byt v 24; byt v 16; byt v 8; byt v 0].
Proof. cbn [be_bytes]. rewrite !byt_div by lia. reflexivity. Qed.

Lemma le8 v : le_bytes 8 v = [byt v 0; byt v 8; byt v 16; byt v 24; byt v 32; byt v 40; byt v 48; byt v 56].
Proof.
  cbn [le_bytes]. rewrite !byt_div by lia. rewrite !Z.div_div by lia.
  change (2^0) with 1. rewrite Z.div_1_r. reflexivity.
Qed.
Lemma be8 v : be_bytes 8 v = [byt v 56; byt v 48; byt v 40; byt v 32; byt v 24; byt v 16; byt v 8; byt v 0].
Proof. cbn [be_bytes]. rewrite !byt_div by lia. reflexivity. Qed.

(* storing the swapped word gives the big-endian bytes on either host *)
Lemma store1 big w : mem_of big 1 w = be_bytes 1 w.
Proof. destruct big; cbn [mem_of]; [reflexivity|]. rewrite le1, be1. reflexivity. Qed.
Lemma store2 big w : 0 <= w < 65536 -> mem_of big 2 (to_endian_u16 big w) = be_bytes 2 w.
Proof.
  intros H. destruct big; cbn [mem_of]; [reflexivity|]. rewrite le2, be2. unfold byt.
  destruct (swap16 w H) as [-> ->]. reflexivity.
Qed.
Lemma store4 big w : mem_of big 4 (to_endian_u32 big w) = be_bytes 4 w.
Proof.
  destruct big; cbn [mem_of]; [reflexivity|]. rewrite le4, be4. unfold byt.
  destruct (swap32 w) as (-> & -> & -> & ->). reflexivity.
Qed.
Lemma store8 big w : mem_of big 8 (to_endian_u64 big w) = be_bytes 8 w.
Proof.
  destruct big; cbn [mem_of]; [reflexivity|]. rewrite le8, be8. unfold byt.
  destruct (swap64 w) as (-> & -> & -> & -> & -> & -> & -> & ->). reflexivity.
Qed.

(* bounds of the swapped word *)
Lemma high_bits_bound x n : 0 <= n -> (forall m, n <= m -> Z.testbit x m = false) -> x = x mod 2 ^ n.
Proof.
  intros Hn H. apply Z.bits_inj'. intros m Hm.
  destruct (Z.lt_ge_cases m n).
  - rewrite Z.mod_pow2_bits_low by lia. reflexivity.
  - rewrite Z.mod_pow2_bits_high by lia. apply H. lia.
Qed.

Ltac high_mask :=
  repeat match goal with
  | |- context [Z.testbit (Zpos ?p) ?i] =>
      rewrite (Z.bits_above_log2 (Zpos p) i) by
        (try lia; match goal with |- Z.log2 ?q < _ =>
           let c := eval vm_compute in (Z.log2 q) in change (Z.log2 q) with c; lia end)
  end.

Ltac swap_bound n :=
  apply high_bits_bound; [lia|]; intros m Hm;
  repeat (rewrite Z.lor_spec || (rewrite Z.shiftl_spec by lia) || (rewrite Z.shiftr_spec by lia) || rewrite Z.land_spec);
  high_mask; rewrite ?andb_false_r; reflexivity.

Lemma swap16_bound x : to_endian_u16 false x = to_endian_u16 false x mod 2 ^ 16.
Proof. unfold to_endian_u16. swap_bound 16. Qed.
Lemma swap32_bound x : to_endian_u32 false x = to_endian_u32 false x mod 2 ^ 32.
Proof. unfold to_endian_u32. swap_bound 32. Qed.
Lemma swap64_bound x : to_endian_u64 false x = to_endian_u64 false x mod 2 ^ 64.
Proof. unfold to_endian_u64. swap_bound 64. Qed.

Lemma le_bytes_le_val s : bytes_ok s -> le_bytes (length s) (le_val s) = s.
Proof.
  induction 1 as [|b s Hb Hs IH]; [reflexivity|]. unfold is_byte in Hb.
  cbn [length le_bytes le_val]. f_equal.
  - rewrite Z.mul_comm, Z.mod_add by lia. apply Z.mod_small. lia.
  - rewrite Z.mul_comm, Z.div_add by lia. rewrite Z.div_small by lia. exact IH.
Qed.

(* loading big-endian bytes and swapping gives back the word *)
Lemma load_gen (swap : Z -> Z) n w :
  0 <= w < 256 ^ Z.of_nat n ->
  (forall x, 0 <= x < 256 ^ Z.of_nat n -> le_bytes n (swap x) = be_bytes n x) ->
  (forall x, swap x = swap x mod 256 ^ Z.of_nat n) ->
  swap (le_val (be_bytes n w)) = w.
Proof.
  intros Hw Hs Hb. set (x := le_val (be_bytes n w)).
  assert (Ex : le_bytes n x = be_bytes n w).
  { unfold x. pose proof (le_bytes_le_val (be_bytes n w) (be_bytes_ok n w)) as E.
    rewrite be_bytes_length in E. exact E. }
  assert (Hx : 0 <= x < 256 ^ Z.of_nat n).
  { assert (x = x mod 256 ^ Z.of_nat n).
    { rewrite <- le_val_le_bytes. rewrite Ex. reflexivity. }
    pose proof (Z.mod_pos_bound x (256 ^ Z.of_nat n) (pow256_pos n)). lia. }
  specialize (Hs x Hx).
  rewrite <- (rev_le_be n x), Ex, <- (rev_le_be n w), rev_involutive in Hs.
  assert (E : le_val (le_bytes n (swap x)) = le_val (le_bytes n w)) by (rewrite Hs; reflexivity).
  rewrite !le_val_le_bytes, <- Hb, Z.mod_small in E by lia. exact E.
Qed.

Lemma load1 big w : 0 <= w < 256 -> mem_to big (be_bytes 1 w) = w.
Proof. intros H. destruct big; cbn; rewrite Z.div_1_r, Z.mod_small by lia; lia. Qed.
Lemma load2 big w : 0 <= w < 65536 -> to_endian_u16 big (mem_to big (be_bytes 2 w)) = w.
Proof.
  intros H. destruct big; cbn [mem_to].
  - unfold to_endian_u16. rewrite be_val_be_bytes. apply Z.mod_small. exact H.
  - apply load_gen; [exact H|intros x Hx; exact (store2 false x Hx)|exact swap16_bound].
Qed.
Lemma load4 big w : 0 <= w < 4294967296 -> to_endian_u32 big (mem_to big (be_bytes 4 w)) = w.
Proof.
  intros H. destruct big; cbn [mem_to].
  - unfold to_endian_u32. rewrite be_val_be_bytes. apply Z.mod_small. exact H.
  - apply load_gen; [exact H|intros x Hx; exact (store4 false x)|exact swap32_bound].
Qed.
Lemma load8 big w : 0 <= w < 18446744073709551616 -> to_endian_u64 big (mem_to big (be_bytes 8 w)) = w.
Proof.
  intros H. destruct big; cbn [mem_to].
  - unfold to_endian_u64. rewrite be_val_be_bytes. apply Z.mod_small. exact H.
  - apply load_gen; [exact H|intros x Hx; exact (store8 false x)|exact swap64_bound].
Qed.
