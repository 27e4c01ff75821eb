From Verif.Raft Require Import Model Spec.
From Verif.Key Require Import ProofsWord ProofsMem.
Local Open Scope Z_scope.

Lemma app_i64_be big x : i64 x -> app_i64 big x = be_bytes 8 (x + 2 ^ 63).
Proof. intros H. unfold app_i64. rewrite store8, encode_i64_val by (unfold i64 in H; lia). reflexivity. Qed.
Lemma app_i64_len big x : length (app_i64 big x) = 8%nat.
Proof. unfold app_i64, mem_of. destruct big; [apply be_bytes_length|apply le_bytes_length]. Qed.
Lemma app_i64_cmp big x y : i64 x -> i64 y -> bcompare (app_i64 big x) (app_i64 big y) = (x ?= y).
Proof.
  intros Hx Hy. rewrite !app_i64_be by auto. rewrite bcompare_be; unfold i64 in *.
  - destruct (Z.compare_spec (x + 2 ^ 63) (y + 2 ^ 63)), (Z.compare_spec x y); auto; lia.
  - change (256 ^ Z.of_nat 8) with (2 ^ 64). lia.
  - change (256 ^ Z.of_nat 8) with (2 ^ 64). lia.
Qed.
Lemma data_cmp big r i r' i' : i64 r -> i64 i -> i64 r' -> i64 i' ->
  bcompare (data_key big r i) (data_key big r' i') = match r ?= r' with Eq => i ?= i' | x => x end.
Proof.
  intros. unfold data_key. rewrite bcompare_app_len by (rewrite !app_i64_len; auto).
  rewrite app_i64_cmp by auto. destruct (r ?= r'); auto. rewrite bcompare_app_same. apply app_i64_cmp; auto.
Qed.
Lemma meta_data_cmp big r r' i' : i64 r -> i64 r' -> i64 i' ->
  bcompare (meta_key big r) (data_key big r' i') = match r ?= r' with Eq => Lt | x => x end.
Proof.
  intros. unfold data_key, meta_key. rewrite bcompare_app_len by (rewrite !app_i64_len; auto).
  rewrite app_i64_cmp by auto. destruct (r ?= r'); auto.
Qed.
Lemma data_meta_cmp big r i r' : i64 r -> i64 r' -> i64 i ->
  bcompare (data_key big r i) (meta_key big r') = match r ?= r' with Eq => Gt | x => x end.
Proof.
  intros. unfold data_key, meta_key. rewrite bcompare_app_len by (rewrite !app_i64_len; auto).
  rewrite app_i64_cmp by auto. destruct (r ?= r'); auto.
Qed.
Lemma meta_cmp big r r' : i64 r -> i64 r' -> bcompare (meta_key big r) (meta_key big r') = (r ?= r').
Proof.
  intros. unfold meta_key. rewrite bcompare_app_len by (rewrite !app_i64_len; auto).
  rewrite app_i64_cmp by auto. destruct (r ?= r'); auto.
Qed.

Lemma data_eqb big r i r' i' : i64 r -> i64 i -> i64 r' -> i64 i' ->
  beqb (data_key big r i) (data_key big r' i') = (r =? r') && (i =? i').
Proof.
  intros. unfold beqb. rewrite data_cmp by auto.
  destruct (Z.compare_spec r r'), (Z.compare_spec i i'), (Z.eqb_spec r r'), (Z.eqb_spec i i'); auto; lia.
Qed.
Lemma data_leb big r i r' i' : i64 r -> i64 i -> i64 r' -> i64 i' ->
  bleb (data_key big r i) (data_key big r' i') = (r <? r') || ((r =? r') && (i <=? i')).
Proof.
  intros. unfold bleb. rewrite data_cmp by auto.
  destruct (Z.compare_spec r r'), (Z.compare_spec i i'), (Z.eqb_spec r r'), (Z.leb_spec i i'), (Z.ltb_spec r r'); auto; lia.
Qed.
Lemma data_ltb big r i r' i' : i64 r -> i64 i -> i64 r' -> i64 i' ->
  bltb (data_key big r i) (data_key big r' i') = (r <? r') || ((r =? r') && (i <? i')).
Proof.
  intros. unfold bltb. rewrite data_cmp by auto.
  destruct (Z.compare_spec r r'), (Z.compare_spec i i'), (Z.eqb_spec r r'), (Z.ltb_spec i i'), (Z.ltb_spec r r'); auto; lia.
Qed.
Lemma meta_eqb big r r' : i64 r -> i64 r' -> beqb (meta_key big r) (meta_key big r') = (r =? r').
Proof. intros. unfold beqb. rewrite meta_cmp by auto. destruct (Z.compare_spec r r'), (Z.eqb_spec r r'); auto; lia. Qed.
Lemma meta_data_eqb big r r' i : i64 r -> i64 r' -> i64 i -> beqb (meta_key big r) (data_key big r' i) = false.
Proof. intros. unfold beqb. rewrite meta_data_cmp by auto. destruct (r ?= r'); auto. Qed.
Lemma data_meta_eqb big r r' i : i64 r -> i64 r' -> i64 i -> beqb (data_key big r i) (meta_key big r') = false.
Proof. intros. unfold beqb. rewrite data_meta_cmp by auto. destruct (r ?= r'); auto. Qed.
(* a meta key is in no range of data keys of one region *)
Lemma meta_not_in_range big r r' a b : i64 r -> i64 r' -> i64 a -> i64 b ->
  bleb (data_key big r a) (meta_key big r') && bltb (meta_key big r') (data_key big r b) = false.
Proof.
  intros. unfold bleb, bltb. rewrite data_meta_cmp, meta_data_cmp by auto.
  destruct (Z.compare_spec r r'), (Z.compare_spec r' r); auto; lia.
Qed.
Lemma data_in_range big r a b r' i : i64 r -> i64 r' -> i64 a -> i64 b -> i64 i ->
  bleb (data_key big r a) (data_key big r' i) && bltb (data_key big r' i) (data_key big r b) = (r =? r') && ((a <=? i) && (i <? b)).
Proof. intros. rewrite data_leb, data_ltb by auto. lia. Qed.

Lemma decode_app big x : i64 x -> decode_i64 (to_endian_u64 big (mem_to big (app_i64 big x))) = x.
Proof.
  intros H. rewrite app_i64_be by auto. unfold i64 in H. rewrite load8 by lia. rewrite decode_i64_val by lia. lia.
Qed.
Lemma firstn_app_exact {A} (a b : list A) n : length a = n -> firstn n (a ++ b) = a.
Proof. intros <-. rewrite firstn_app, Nat.sub_diag, firstn_all. cbn. apply app_nil_r. Qed.
Lemma skipn_app_exact {A} (a b : list A) n : length a = n -> skipn n (a ++ b) = b.
Proof. intros <-. rewrite skipn_app, Nat.sub_diag, skipn_all. reflexivity. Qed.
Lemma decode_key big r i : i64 r -> i64 i -> decode_data_key big (data_key big r i) = Some (r, i).
Proof.
  intros Hr Hi. unfold decode_data_key.
  assert (L : length (data_key big r i) = 17%nat) by (unfold data_key; rewrite !app_length, !app_i64_len; reflexivity).
  rewrite L. cbn [Nat.eqb]. f_equal. f_equal.
  - unfold data_key. rewrite (firstn_app_exact (app_i64 big r)) by apply app_i64_len. apply decode_app; auto.
  - unfold data_key. rewrite app_assoc. rewrite (skipn_app_exact (app_i64 big r ++ [2])) by (rewrite app_length, app_i64_len; reflexivity).
    rewrite <- (app_nil_r (app_i64 big i)). rewrite firstn_app_exact by apply app_i64_len. apply decode_app; auto.
Qed.
Lemma decode_meta big r : decode_data_key big (meta_key big r) = None.
Proof. unfold decode_data_key, meta_key. rewrite app_length, app_i64_len. reflexivity. Qed.

Lemma data_prefix big r i : firstn 9 (data_key big r i) = app_i64 big r ++ [2].
Proof. unfold data_key. rewrite app_assoc. apply firstn_app_exact. rewrite app_length, app_i64_len. reflexivity. Qed.
Lemma meta_prefix big r : firstn 9 (meta_key big r) = app_i64 big r ++ [1].
Proof. unfold meta_key. apply firstn_all2. rewrite app_length, app_i64_len. cbn; lia. Qed.
Lemma same_prefix_data big r i r' i' : i64 r -> i64 r' -> same_prefix 9 (data_key big r i) (data_key big r' i') = (r =? r').
Proof.
  intros. unfold same_prefix, beqb. rewrite !data_prefix. rewrite bcompare_app_len by (rewrite !app_i64_len; auto).
  rewrite app_i64_cmp by auto. destruct (Z.compare_spec r r'), (Z.eqb_spec r r'); auto; lia.
Qed.
Lemma same_prefix_meta big r i r' : i64 r -> i64 r' -> same_prefix 9 (data_key big r i) (meta_key big r') = false.
Proof.
  intros. unfold same_prefix, beqb. rewrite data_prefix, meta_prefix. rewrite bcompare_app_len by (rewrite !app_i64_len; auto).
  rewrite app_i64_cmp by auto. destruct (Z.compare_spec r r'); auto.
Qed.

(* ---- values ---- *)
Lemma head_len t ty : length (head_bytes t ty) = 12%nat.
Proof. unfold head_bytes. rewrite app_length, !be_bytes_length. reflexivity. Qed.
Lemma head_term_ok t ty body : 0 < t < 2 ^ 63 -> head_term (head_bytes t ty ++ body) = t.
Proof.
  intros H. unfold head_term, head_bytes. rewrite <- app_assoc. rewrite firstn_app_exact by apply be_bytes_length.
  rewrite be_val_be_bytes. change (256 ^ Z.of_nat 8) with (2 ^ 64). rewrite Z.mod_small by lia.
  unfold to_signed. change (64 - 1) with 63. rewrite Z.mod_small by lia. destruct (Z.ltb_spec t (2 ^ 63)); lia.
Qed.
Lemma head_type_ok t ty body : 0 <= ty < 2 ^ 31 -> head_type (head_bytes t ty ++ body) = ty.
Proof.
  intros H. unfold head_type, head_bytes. rewrite <- app_assoc. rewrite skipn_app_exact by apply be_bytes_length.
  rewrite firstn_app_exact by apply be_bytes_length.
  rewrite be_val_be_bytes. change (256 ^ Z.of_nat 4) with (2 ^ 32). rewrite Z.mod_small by lia.
  unfold to_signed. change (32 - 1) with 31. rewrite Z.mod_small by lia. destruct (Z.ltb_spec ty (2 ^ 31)); lia.
Qed.
Lemma head_body t ty body : skipn LOG_HEAD_SIZE (head_bytes t ty ++ body) = body.
Proof. apply skipn_app_exact. apply head_len. Qed.

Lemma mem_to_of big n w : 0 <= w < 256 ^ Z.of_nat n -> mem_to big (mem_of big n w) = w.
Proof.
  intros H. destruct big; cbn [mem_to mem_of].
  - rewrite be_val_be_bytes. apply Z.mod_small. auto.
  - rewrite le_val_le_bytes. apply Z.mod_small. auto.
Qed.
Lemma int64_roundtrip big x : i64 x -> int64_of big (int64_bytes big x) = x.
Proof.
  intros H. unfold int64_of, int64_bytes. rewrite firstn_all2.
  2:{ unfold mem_of. destruct big; [rewrite be_bytes_length|rewrite le_bytes_length]; lia. }
  rewrite mem_to_of.
  - unfold to_signed, to_unsigned, i64 in *. change (64 - 1) with 63. rewrite Z.mod_mod by lia.
    destruct (Z_lt_ge_dec x 0).
    + replace (x mod 2 ^ 64) with (x + 2 ^ 64) by (apply Z.mod_unique with (-1); lia). destruct (Z.ltb_spec (x + 2 ^ 64) (2 ^ 63)); lia.
    + rewrite Z.mod_small by lia. destruct (Z.ltb_spec x (2 ^ 63)); lia.
  - change (256 ^ Z.of_nat 8) with (2 ^ 64). unfold to_unsigned. apply Z.mod_pos_bound. lia.
Qed.
