(* bitmaps as increasing lists; 64-bit sums; order of values *)
From Coq Require Import List ZArith Bool Lia Sorting.Permutation Sorting.Sorted.
From Verif Require Import Common.Bytes Key.Model Key.Spec Agg.Model Agg.Spec.
Import ListNotations.
Local Open Scope Z_scope.

Lemma bmem_iff x l : bmem x l = true <-> In x l.
Proof.
  unfold bmem. rewrite existsb_exists. split.
  - intros (y & Hy & E). apply Z.eqb_eq in E. now subst.
  - intros H0. exists x. split; [assumption|apply Z.eqb_refl].
Qed.

Lemma bins_in x l y : In y (bins x l) <-> y = x \/ In y l.
Proof.
  induction l as [|z q IH]; cbn [bins]; [cbn; intuition|].
  destruct (Z.compare_spec x z) as [E|E|E]; cbn [In]; [subst; intuition|intuition|rewrite IH; intuition].
Qed.
Lemma bins_inc x l : increasing l -> increasing (bins x l).
Proof.
  intros S0. induction S0 as [|z q Sq IH Hz]; cbn [bins]; [repeat constructor|].
  destruct (Z.compare_spec x z) as [E|E|E].
  - constructor; assumption.
  - constructor; [constructor; assumption|]. constructor; [assumption|].
    eapply Forall_impl; [|exact Hz]. cbn. lia.
  - constructor; [assumption|]. apply Forall_forall. intros y Hy. apply bins_in in Hy.
    rewrite Forall_forall in Hz. destruct Hy as [->|Hy]; auto.
Qed.
Lemma bor_in b : forall a y, In y (bor a b) <-> In y a \/ In y b.
Proof.
  unfold bor. induction b as [|x b IH]; intros a y; cbn [fold_left]; [cbn; intuition|].
  rewrite IH, bins_in. cbn [In]. intuition.
Qed.
Lemma bor_inc b : forall a, increasing a -> increasing (bor a b).
Proof.
  unfold bor. induction b as [|x b IH]; intros a Ha; cbn [fold_left]; [assumption|]. apply IH, bins_inc, Ha.
Qed.
Lemma inc_filter f l : increasing l -> increasing (filter f l).
Proof.
  intros S0. induction S0 as [|z q Sq IH Hz]; cbn [filter]; [constructor|].
  destruct (f z); [|assumption]. constructor; [assumption|].
  apply Forall_forall. intros y Hy. apply filter_In in Hy. rewrite Forall_forall in Hz. apply Hz, Hy.
Qed.
Lemma band_in a b y : In y (band a b) <-> In y a /\ In y b.
Proof. unfold band. rewrite filter_In, bmem_iff. tauto. Qed.
Lemma band_inc a b : increasing a -> increasing (band a b).
Proof. apply inc_filter. Qed.
Lemma bxor_in a b y : In y (bxor a b) <-> (In y a /\ ~ In y b) \/ (In y b /\ ~ In y a).
Proof.
  unfold bxor. rewrite bor_in, !filter_In, !negb_true_iff, <- !not_true_iff_false, !bmem_iff. tauto.
Qed.
Lemma bxor_inc a b : increasing a -> increasing (bxor a b).
Proof. intros Ha. apply bor_inc, inc_filter, Ha. Qed.

(* ---- 64 bits ---- *)

Definition wrap (uns : bool) (z : Z) : Z := if uns then to_unsigned 64 z else to_signed 64 z.
Lemma wrap_mod uns z : exists k, wrap uns z = z + k * 2 ^ 64.
Proof.
  unfold wrap, to_unsigned, to_signed. pose proof (Z.div_mod z (2 ^ 64) ltac:(lia)) as D.
  destruct uns; [exists (- (z / 2 ^ 64)); lia|].
  destruct (_ <? _); [exists (- (z / 2 ^ 64)); lia|exists (- (z / 2 ^ 64) - 1); lia].
Qed.
Lemma wrap_period uns z k : wrap uns (z + k * 2 ^ 64) = wrap uns z.
Proof. unfold wrap, to_unsigned, to_signed. rewrite Z_mod_plus_full. reflexivity. Qed.
Lemma wrap_add uns x y : add64 uns (wrap uns x) y = wrap uns (x + y).
Proof.
  change (add64 uns (wrap uns x) y) with (wrap uns (wrap uns x + y)).
  destruct (wrap_mod uns x) as (k & ->). rewrite <- (wrap_period uns (x + y) k). f_equal. lia.
Qed.
Lemma wrap_add2 uns x y : add64 uns (wrap uns x) (wrap uns y) = wrap uns (x + y).
Proof.
  rewrite wrap_add. destruct (wrap_mod uns y) as (k & ->). rewrite <- (wrap_period uns (x + y) k). f_equal. lia.
Qed.
Lemma wrap_zero uns x y : wrap uns x = 0 -> wrap uns (x + y) = wrap uns y.
Proof.
  intros E. destruct (wrap_mod uns x) as (k & Hk). rewrite E in Hk.
  rewrite <- (wrap_period uns (x + y) k). f_equal. lia.
Qed.

Lemma zsum_app a b : zsum (a ++ b) = zsum a + zsum b.
Proof. unfold zsum. induction a as [|x a IH]; cbn [app fold_right]; [reflexivity|]. rewrite IH. lia. Qed.
Lemma zsum_cons x b : zsum (x :: b) = x + zsum b.
Proof. reflexivity. Qed.
Lemma zsum_perm a b : Permutation a b -> zsum a = zsum b.
Proof. intros P. induction P; rewrite ?zsum_cons; lia. Qed.
Lemma zsum_abs a : Z.abs (zsum a) <= zsum (map Z.abs a).
Proof. induction a as [|x a IH]; cbn [map]; rewrite ?zsum_cons; [cbn; lia|lia]. Qed.
Lemma zsum_nonneg a : Forall (fun z => 0 <= z) a -> 0 <= zsum a.
Proof. intros F. induction F; rewrite ?zsum_cons; [cbn; lia|lia]. Qed.
Lemma abs_nonneg a : 0 <= zsum (map Z.abs a).
Proof. induction a as [|x a IH]; cbn [map]; rewrite ?zsum_cons; [cbn; lia|lia]. Qed.

(* ---- order ---- *)

Lemma vcompare_antisym t v w : value_compare t w v = CompOpp (value_compare t v w).
Proof. destruct t, v, w; cbn; auto using Z.compare_antisym, bcompare_antisym. Qed.
Lemma bcompare_trans a b c : bcompare a b <> Gt -> bcompare b c <> Gt -> bcompare a c <> Gt.
Proof.
  intros H1 H2. destruct (bcompare a b) eqn:E1; [|destruct (bcompare b c) eqn:E2|congruence].
  - apply bcompare_eq in E1. now subst.
  - apply bcompare_eq in E2. subst. congruence.
  - rewrite (bcompare_lt_trans a b c); congruence.
  - congruence.
Qed.
Lemma zcompare_trans a b c : (a ?= b) <> Gt -> (b ?= c) <> Gt -> (a ?= c) <> Gt.
Proof. change ((a ?= b) <> Gt) with (a <= b). change ((b ?= c) <> Gt) with (b <= c). change ((a ?= c) <> Gt) with (a <= c). lia. Qed.
Lemma vcompare_trans t u v w : value_compare t u v <> Gt -> value_compare t v w <> Gt -> value_compare t u w <> Gt.
Proof.
  destruct t, u, v, w; cbn; try congruence; eauto using bcompare_trans, zcompare_trans.
Qed.
