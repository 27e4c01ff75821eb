(* the sets of MULTI_*_DISTINCT and their serialization *)
From Coq Require Import List ZArith Bool Lia.
From Verif Require Import Common.Bytes Common.KV Key.Model Key.Spec Agg.Model Agg.Spec Agg.Bits.
Import ListNotations.
Local Open Scope Z_scope.

Lemma veqb_eq v w : veqb v w = true <-> v = w.
Proof.
  destruct v, w; cbn [veqb]; try (split; congruence).
  - rewrite Z.eqb_eq. split; congruence.
  - rewrite beqb_eq. split; congruence.
Qed.
Lemma sins_mem v s : existsb (veqb v) s = true <-> In v s.
Proof.
  rewrite existsb_exists. split.
  - intros (y & Hy & E). apply veqb_eq in E. now subst.
  - intros H0. exists v. split; [assumption|]. now apply veqb_eq.
Qed.
Lemma sins_in v s x : In x (sins v s) <-> x = v \/ In x s.
Proof.
  unfold sins. destruct (existsb (veqb v) s) eqn:E.
  - apply sins_mem in E. split; [tauto|]. intros [->|]; assumption.
  - rewrite in_app_iff. cbn. intuition.
Qed.
Lemma NoDup_snoc {A} (s : list A) v : NoDup s -> ~ In v s -> NoDup (s ++ [v]).
Proof.
  intros N Hn. induction N as [|x s Hx N IH]; cbn [app]; [repeat constructor; auto|].
  constructor.
  - rewrite in_app_iff. cbn in *. intuition.
  - apply IH. cbn in Hn. tauto.
Qed.
Lemma sins_nodup v s : NoDup s -> NoDup (sins v s).
Proof.
  intros N. unfold sins. destruct (existsb (veqb v) s) eqn:E; [assumption|].
  apply NoDup_snoc; [assumption|]. rewrite <- sins_mem. congruence.
Qed.
Lemma smerge_in t : forall s x, In x (smerge s t) <-> In x s \/ In x t.
Proof.
  unfold smerge. induction t as [|v t IH]; intros s x; cbn [fold_left]; [cbn; tauto|].
  rewrite IH, sins_in. cbn. intuition.
Qed.
Lemma smerge_nodup t : forall s, NoDup s -> NoDup (smerge s t).
Proof.
  unfold smerge. induction t as [|v t IH]; intros s N; cbn [fold_left]; [assumption|]. apply IH, sins_nodup, N.
Qed.

(* ---- bytes ---- *)

Lemma put_length n z : length (put n z) = n.
Proof. apply le_bytes_length. Qed.
Lemma get_put n z : le_val (put n z) = z mod 2 ^ (8 * Z.of_nat n).
Proof.
  unfold put. rewrite le_val_le_bytes.
  replace (256 ^ Z.of_nat n) with (2 ^ (8 * Z.of_nat n)); [apply Z.mod_mod; apply Z.pow_nonzero; lia|].
  rewrite Z.pow_mul_r by lia. reflexivity.
Qed.
Lemma firstn_put n z l : firstn n (put n z ++ l) = put n z.
Proof. rewrite firstn_app, put_length, Nat.sub_diag, firstn_O, app_nil_r. rewrite <- (put_length n z) at 1. apply firstn_all. Qed.
Lemma skipn_put n z l : skipn n (put n z ++ l) = l.
Proof.
  rewrite skipn_app, put_length, Nat.sub_diag. rewrite skipn_all2 by now rewrite put_length. reflexivity.
Qed.
Lemma geti32_put n l : 0 <= n < 2 ^ 31 -> geti32 (put 4 n ++ l) = n.
Proof.
  intros Hn. unfold geti32. rewrite firstn_put, get_put. change (8 * Z.of_nat 4) with 32.
  unfold to_signed. rewrite Z.mod_mod by lia. rewrite (Z.mod_small n) by lia.
  change (2 ^ (32 - 1)) with (2 ^ 31). destruct (Z.ltb_spec n (2 ^ 31)); lia.
Qed.
Lemma get_num_put t z l : int_val_ok t z -> get_num t (put (type_size t) z ++ l) = z.
Proof.
  intros Hz. unfold get_num. rewrite firstn_put, get_put.
  assert (E : forall n, 0 < n -> - 2 ^ (n - 1) <= z < 2 ^ (n - 1) -> to_signed n (z mod 2 ^ n) = z).
  { intros n Hn B. unfold to_signed. rewrite Z.mod_mod by (apply Z.pow_nonzero; lia).
    assert (P : 2 ^ n = 2 * 2 ^ (n - 1)) by (rewrite <- Z.pow_succ_r by lia; f_equal; lia).
    destruct (Z.ltb_spec (z mod 2 ^ n) (2 ^ (n - 1))) as [L|L].
    - destruct (Z.leb_spec 0 z); [apply Z.mod_small; lia|].
      exfalso. replace (z mod 2 ^ n) with (z + 2 ^ n) in L; [lia|].
      symmetry. rewrite <- (Z_mod_plus_full z 1), Z.mul_1_l. apply Z.mod_small. lia.
    - destruct (Z.leb_spec 0 z); [rewrite Z.mod_small in L by lia; lia|].
      rewrite <- (Z_mod_plus_full z 1), Z.mul_1_l, Z.mod_small by lia. lia. }
  destruct t; unfold int_val_ok in Hz; cbn [int_range] in Hz; try contradiction; cbn [type_signed type_size];
    first [apply E; [reflexivity|cbn; lia] | apply Z.mod_small; cbn; lia].
Qed.

(* ---- the round trip ---- *)

Definition item_ok (t : coltype) (v : value) : Prop :=
  match v with VNum z => int_val_ok t z | VStr _ => t = STRING end.

Lemma uns_num_ok t vs : forall fuel,
  t <> STRING -> Forall (item_ok t) vs -> (length vs <= fuel)%nat ->
  uns_num fuel t (Z.of_nat (length (flat_map (ser_item t) vs))) (flat_map (ser_item t) vs) = Some vs.
Proof.
  induction vs as [|v vs IH]; intros fuel Ht F Hf.
  - destruct fuel; reflexivity.
  - inversion F as [|? ? Hv Fs]; subst. cbn [length] in Hf. destruct fuel as [|fuel]; [lia|].
    destruct v as [z|s]; [|cbn in Hv; contradiction]. cbn [flat_map ser_item].
    rewrite app_length, put_length. cbn [uns_num].
    assert (P : (0 < type_size t)%nat) by (destruct t; cbn; lia).
    destruct (Z.leb_spec (Z.of_nat (type_size t + length (flat_map (ser_item t) vs))) 0) as [L|L]; [lia|].
    rewrite app_length, put_length.
    destruct (Nat.ltb_spec (type_size t + length (flat_map (ser_item t) vs)) (type_size t)) as [L2|L2]; [lia|].
    rewrite skipn_put.
    replace (Z.of_nat (type_size t + length (flat_map (ser_item t) vs)) - Z.of_nat (type_size t))
      with (Z.of_nat (length (flat_map (ser_item t) vs))) by lia.
    rewrite IH by (assumption || lia). rewrite get_num_put by exact Hv. reflexivity.
Qed.

Lemma uns_str_ok vs : forall fuel,
  Forall (item_ok STRING) vs -> (length vs <= fuel)%nat -> Z.of_nat (length (flat_map (ser_item STRING) vs)) < 2 ^ 31 ->
  uns_str fuel (Z.of_nat (length (flat_map (ser_item STRING) vs))) (flat_map (ser_item STRING) vs) = Some vs.
Proof.
  induction vs as [|v vs IH]; intros fuel F Hf B.
  - destruct fuel; reflexivity.
  - inversion F as [|? ? Hv Fs]; subst. cbn [length] in Hf. destruct fuel as [|fuel]; [lia|].
    destruct v as [z|s]; [cbn in Hv; contradiction|]. cbn [flat_map ser_item] in *.
    remember (flat_map (ser_item STRING) vs) as tl0 eqn:Etl. rewrite <- app_assoc in *.
    rewrite !app_length, put_length in *. cbn [uns_str].
    destruct (Z.leb_spec (Z.of_nat (4 + (length s + length tl0))) 0) as [L|L]; [lia|].
    rewrite !app_length, put_length.
    destruct (Nat.ltb_spec (4 + (length s + length tl0)) 4) as [L2|L2]; [lia|].
    rewrite skipn_put, geti32_put by lia.
    rewrite app_length, Nat2Z.id.
    destruct (Z.ltb_spec (Z.of_nat (length s)) 0) as [L3|L3]; [lia|]. cbn [orb].
    destruct (Z.ltb_spec (Z.of_nat (length s + length tl0)) (Z.of_nat (length s))) as [L4|L4]; [lia|].
    replace (skipn (length s) (s ++ tl0)) with tl0
      by (rewrite skipn_app, skipn_all, Nat.sub_diag; reflexivity).
    replace (firstn (length s) (s ++ tl0)) with s
      by (rewrite firstn_app, firstn_all, Nat.sub_diag; cbn; now rewrite app_nil_r).
    replace (Z.of_nat (4 + (length s + length tl0)) - 4 - Z.of_nat (length s)) with (Z.of_nat (length tl0)) by lia.
    rewrite IH by (assumption || lia). reflexivity.
Qed.

Lemma items_length t vs : t <> OTHER_TYPE -> Forall (item_ok t) vs ->
  Z.of_nat (length (flat_map (ser_item t) vs)) <= zsum (map item_size vs) /\ (length vs <= length (flat_map (ser_item t) vs) \/ vs = [] )%nat.
Proof.
  intros Ht F. induction F as [|v vs Hv F IH]; cbn [flat_map map].
  - cbn. split; [lia|auto].
  - rewrite zsum_cons, app_length. destruct IH as [I1 I2].
    assert (Z.of_nat (length (ser_item t v)) <= item_size v /\ (1 <= length (ser_item t v))%nat).
    { destruct v as [z|s]; cbn [ser_item item_size]; rewrite ?app_length, !put_length; [|lia].
      destruct t; cbn; lia. }
    split; [lia|left]. cbn [length]. destruct I2 as [I2|I2]; [lia|]. subst vs. cbn [length]. lia.
Qed.

Lemma type_of_code_ok t : t <> OTHER_TYPE -> type_of_code (type_code t) = Some t.
Proof. destruct t; intros Ht; try reflexivity. congruence. Qed.

Lemma unserialize_serialize t vs : Forall (item_ok t) vs -> vs <> [] -> zsum (map item_size vs) < 2 ^ 31 - 1 ->
  unserialize (serialize t vs) = Some vs.
Proof.
  intros F Hn B.
  assert (Ht : t <> OTHER_TYPE).
  { intros ->. destruct vs as [|[z|s] vs]; [congruence|inversion F; subst; contradiction|inversion F as [|? ? Hv]; subst; cbn in Hv; discriminate]. }
  destruct (items_length t vs Ht F) as [L1 L2].
  assert (ES : serialize t vs = put 4 (Z.of_nat (S (length (flat_map (ser_item t) vs)))) ++ type_code t :: flat_map (ser_item t) vs).
  { destruct vs; [congruence|reflexivity]. }
  rewrite ES. clear ES. remember (flat_map (ser_item t) vs) as b eqn:Eb.
  assert (Hb : (length vs <= length b)%nat) by (destruct L2 as [L2|L2]; [exact L2|congruence]).
  unfold unserialize. rewrite app_length, put_length. cbn [length].
  assert (1 <= length vs)%nat by (destruct vs; [congruence|cbn; lia]).
  destruct (Nat.ltb_spec (4 + S (length b)) 5) as [L|L]; [lia|].
  rewrite app_nth2 by (rewrite put_length; lia). rewrite put_length. change (4 - 4)%nat with O. cbn [nth].
  rewrite type_of_code_ok by exact Ht.
  rewrite geti32_put by lia.
  change 5%nat with (4 + 1)%nat.
  replace (skipn (4 + 1) (put 4 (Z.of_nat (S (length b))) ++ type_code t :: b)) with b.
  2:{ rewrite skipn_app, put_length. rewrite skipn_all2 by (rewrite put_length; lia). reflexivity. }
  replace (Z.of_nat (S (length b)) - 1) with (Z.of_nat (length b)) by lia.
  destruct t; try (subst b; apply uns_num_ok; [discriminate|assumption|lia]).
  subst b. apply uns_str_ok; [assumption|lia|]. lia.
Qed.
