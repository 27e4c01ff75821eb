(* The order of level-1 keys: by term, then by primary key, then by time. *)
From Coq Require Import ZArith List Bool Lia Sorted.
From Verif Require Import Common.Bytes Common.KV Key.Model Key.ProofsWord Key.ProofsMem Rev.Model Rev.Spec Rev.Order Rev.LevelModel Rev.LevelSpec.
Import ListNotations.
Local Open Scope Z_scope.

Definition nz (t : term) : Prop := Forall (fun b => 0 < b < 256) t.

Lemma time_bytes x : -9223372036854775808 <= x <= 9223372036854775807 -> app_i64 false x = be_bytes 8 (x + 9223372036854775808).
Proof. intros Hx. unfold app_i64. rewrite encode_i64_val by lia. apply store8. Qed.

Lemma time_order x y : -9223372036854775808 <= x <= 9223372036854775807 -> -9223372036854775808 <= y <= 9223372036854775807 ->
  bcompare (app_i64 false x) (app_i64 false y) = (x ?= y).
Proof.
  intros Hx Hy. rewrite !time_bytes by assumption. rewrite bcompare_be by (change (256 ^ Z.of_nat 8) with 18446744073709551616; lia).
  destruct (Z.compare_spec x y), (Z.compare_spec (x + 9223372036854775808) (y + 9223372036854775808)); try reflexivity; lia.
Qed.

Lemma cstr_raw t r : nz t -> cstr (t ++ 0 :: r) = t.
Proof.
  induction 1 as [|b t Hb _ IH]; cbn; [reflexivity|]. destruct (Z.eqb_spec b 0); [lia|]. rewrite IH. reflexivity.
Qed.

Lemma term_order t : forall u a b, nz t -> nz u -> t <> u -> bcompare (t ++ 0 :: a) (u ++ 0 :: b) = bcompare t u.
Proof.
  induction t as [|x t IH]; intros [|y u] a b Ht Hu Ne; cbn.
  - congruence.
  - inversion Hu; subst. destruct y; [lia|reflexivity|lia].
  - inversion Ht; subst. destruct (Z.compare_spec x 0); [lia|lia|reflexivity].
  - inversion Ht; subst. inversion Hu; subst. destruct (Z.compare_spec x y) as [->|L|L]; [|reflexivity|reflexivity]. apply IH; auto. congruence.
Qed.

Lemma pk_order p : forall q a b, separate p q -> separate q p -> p <> q -> bcompare (p ++ a) (q ++ b) = bcompare p q.
Proof.
  induction p as [|x p IH]; intros [|y q] a b Sp Sq Ne; cbn.
  - congruence.
  - exfalso. specialize (Sp (y :: q) eq_refl). discriminate.
  - exfalso. specialize (Sq (x :: p) eq_refl). discriminate.
  - destruct (Z.compare_spec x y) as [->|L|L]; [|reflexivity|reflexivity]. apply IH; [| |congruence].
    + intros r E. apply (Sp r). cbn. congruence.
    + intros r E. apply (Sq r). cbn. congruence.
Qed.

Lemma raw_inj t u p q x y : nz t -> nz u ->
  -9223372036854775808 <= x <= 9223372036854775807 -> -9223372036854775808 <= y <= 9223372036854775807 ->
  raw t p x = raw u q y -> t = u /\ p = q /\ x = y.
Proof.
  intros Ht Hu Hx Hy E. unfold raw in E.
  assert (t = u) by (rewrite <- (cstr_raw t (p ++ 0 :: app_i64 false x) Ht), E; apply cstr_raw; exact Hu). subst u.
  split; [reflexivity|]. apply app_inv_head in E. apply (f_equal (@tl Z)) in E. cbn [tl] in E.
  assert (L : length (app_i64 false x) = length (app_i64 false y)) by (rewrite !time_bytes by assumption; rewrite !be_bytes_length; reflexivity).
  assert (Lp : length p = length q) by (apply (f_equal (@length Z)) in E; rewrite !app_length in E; cbn [length] in E; lia).
  assert (Q : p = q /\ 0 :: app_i64 false x = 0 :: app_i64 false y).
  { clear -E Lp. revert q E Lp. induction p as [|c p IH]; intros [|d q] E Lp; try discriminate; [split; [reflexivity|exact E]|].
    cbn [app length] in E, Lp. assert (c = d) by (apply (f_equal (hd 0)) in E; exact E). apply (f_equal (@tl Z)) in E. cbn [tl] in E. subst d. destruct (IH q E ltac:(lia)) as [-> ?]. split; [reflexivity|assumption]. }
  destruct Q as [-> Q]. split; [reflexivity|]. apply (f_equal (@tl Z)) in Q. cbn [tl] in Q. pose proof (time_order x y Hx Hy) as C. rewrite Q, bcompare_refl in C.
  symmetry in C. apply Z.compare_eq in C. exact C.
Qed.

Lemma raw_term t p x : nz t -> cstr (raw t p x) = t.
Proof. intros Ht. unfold raw. apply cstr_raw. exact Ht. Qed.

(* entries of different terms, of different documents of a term, of different times *)
Lemma raw_by_term t u p q x y : nz t -> nz u -> t <> u -> bcompare (raw t p x) (raw u q y) = bcompare t u.
Proof. intros. unfold raw. apply term_order; assumption. Qed.
Lemma raw_by_pk t p q x y : separate p q -> separate q p -> p <> q -> bcompare (raw t p x) (raw t q y) = bcompare p q.
Proof. intros. unfold raw. rewrite bcompare_app_same. cbn [bcompare]. rewrite Z.compare_refl. apply pk_order; assumption. Qed.
Lemma raw_by_time t p x y :
  -9223372036854775808 <= x <= 9223372036854775807 -> -9223372036854775808 <= y <= 9223372036854775807 ->
  bcompare (raw t p x) (raw t p y) = (x ?= y).
Proof.
  intros Hx Hy. unfold raw. rewrite bcompare_app_same. cbn [bcompare]. rewrite Z.compare_refl. rewrite bcompare_app_same. cbn [bcompare].
  rewrite Z.compare_refl. apply time_order; assumption.
Qed.

Lemma raw_bound t p x : plain t -> below (raw t p x) bound.
Proof.
  intros [Ht B]. unfold raw. assert (G : forall c l, nz l -> below l (repeat 255 c) -> below (l ++ 0 :: p ++ 0 :: app_i64 false x) (repeat 255 c)).
  { clear. induction c as [|c IH]; intros l Hl B; [unfold below in B; destruct l; discriminate B|].
    destruct l as [|b l]; [reflexivity|]. unfold below in *. cbn [repeat app bcompare] in *. inversion Hl; subst. destruct (Z.compare_spec b 255) as [->|L|L]; [|reflexivity|discriminate].
    apply IH; assumption. }
  apply G; assumption.
Qed.

(* seeking to a term skips the entries of smaller terms *)
Lemma seek_raw t u p x : nz t -> nz u -> bleb t (raw u p x) = bleb t u.
Proof.
  intros Ht Hu. unfold bleb. unfold raw. assert (G : forall t, nz t -> match bcompare t (u ++ 0 :: p ++ 0 :: app_i64 false x) with Gt => false | _ => true end = match bcompare t u with Gt => false | _ => true end).
  { clear -Hu. induction Hu as [|y u Hy Hu IH]; intros t Ht.
    - destruct Ht as [|b t Hb _]; [reflexivity|]. cbn. destruct (Z.compare_spec b 0); [lia|lia|reflexivity].
    - destruct Ht as [|b t Hb Ht]; [reflexivity|]. cbn. destruct (b ?= y); [|reflexivity|reflexivity]. apply IH. exact Ht. }
  apply G. exact Ht.
Qed.
