(* Comparison of values of different types, and the row order as a preorder. *)
From Verif Require Import Common.Bytes Expr.Value Expr.Model Expr.Spec Expr.Proofs Expr.RowCompare.
Local Open Scope Z_scope.

Lemma row_preorder ts specs :
  (forall a, typed ts a -> row_compare specs a a = 0) /\
  (forall a b, typed ts a -> typed ts b -> row_compare specs a b <= 0 \/ row_compare specs b a <= 0) /\
  (forall a b, typed ts a -> typed ts b -> row_compare specs a b < 0 <-> 0 < row_compare specs b a) /\
  (forall a b c, typed ts a -> typed ts b -> typed ts c ->
     row_compare specs a b <= 0 -> row_compare specs b c <= 0 -> row_compare specs a c <= 0).
Proof.
  assert (A : forall a b, typed ts a -> typed ts b -> (row_compare specs b a ?= 0) = CompOpp (row_compare specs a b ?= 0)).
  { intros a b Ha Hb. rewrite !(row_compare_lex ts) by assumption. apply lex_antisym. }
  repeat split.
  - intros a Ha. pose proof (A a a Ha Ha) as E. destruct (Z.compare_spec (row_compare specs a a) 0); cbn in E; congruence.
  - intros a b Ha Hb. pose proof (A a b Ha Hb) as E.
    destruct (Z.compare_spec (row_compare specs a b) 0), (Z.compare_spec (row_compare specs b a) 0); cbn in E; try discriminate; lia.
  - intros L. pose proof (A a b H H0) as E.
    destruct (Z.compare_spec (row_compare specs a b) 0), (Z.compare_spec (row_compare specs b a) 0); cbn in E; try discriminate; lia.
  - intros L. pose proof (A a b H H0) as E.
    destruct (Z.compare_spec (row_compare specs a b) 0), (Z.compare_spec (row_compare specs b a) 0); cbn in E; try discriminate; lia.
  - intros a b c Ha Hb Hc H1 H2.
    pose proof (lex_trans _ specs _ _ _ (typed_kinds _ _ Ha) (typed_kinds _ _ Hb) (typed_kinds _ _ Hc)) as T.
    rewrite <- !(row_compare_lex ts) in T by assumption. apply T; assumption.
Qed.

Lemma cast_fits_wf t v v' : wf v -> fits t v -> cast_to t v = Some v' -> wf v'.
Proof.
  intros W F C. destruct (ptype_eq_dec (vt v) t) as [E|E].
  { rewrite cast_same in C by exact E. congruence. }
  destruct F as [Nv|F]; [rewrite cast_null in C by exact Nv; congruence|].
  destruct t; try contradiction; try congruence.
  - destruct F as [Nv R]. destruct (numeric_not _ Nv) as (N1&N2&N3). unfold cast_to in C.
    assert (is_null v = false) as Nn by (unfold is_null; destruct (vt v); congruence).
    rewrite Nn, (ptype_eqb_neq _ _ E), get_int_numeric, wrap_in in C by (assumption || (unfold in_range; cbn; lia)).
    cbn [orb option_map] in C. assert (v' = vnum PI64 (vz v)) as -> by congruence. cbn. repeat split; lia.
  - destruct F as [Nv R]. destruct (numeric_not _ Nv) as (N1&N2&N3). unfold cast_to in C.
    assert (is_null v = false) as Nn by (unfold is_null; destruct (vt v); congruence).
    rewrite Nn, (ptype_eqb_neq _ _ E), get_int_numeric, wrap_in in C by (assumption || (unfold in_range; cbn; lia)).
    cbn [orb option_map] in C. assert (v' = vnum PU64 (vz v)) as -> by congruence. cbn. repeat split; lia.
  - destruct F as [F|[Nv R]]; [congruence|]. rewrite cast_double in C by assumption. injection C as <-. reflexivity.
Qed.

Lemma mixed_order x y : wf x -> wf y -> is_null x = false -> is_null y = false ->
  vt x <> vt y -> common (vt x) (vt y) <> PNull ->
  fits (common (vt x) (vt y)) x -> fits (common (vt x) (vt y)) y ->
  exists c, compare_diff_type x y = Some c /\ order (denote x) (denote y) = Some (c ?= 0).
Proof.
  intros Wx Wy Nx Ny D NC Fx Fy. rewrite <- (common_diff _ _ NC) in Fx, Fy. unfold compare_diff_type. rewrite ptype_eqb_neq by exact D.
  set (t := diff_type (vt x) (vt y)) in *. cbv zeta.
  destruct (cast_fits t x Wx Fx) as (x'&Cx&Hx). destruct (cast_fits t y Wy Fy) as (y'&Cy&Hy).
  destruct Hx as [[_ Dx]|(Tx&Dx&Nx')]; [apply denote_null_iff in Dx; congruence|].
  destruct Hy as [[_ Dy]|(Ty&Dy&Ny')]; [apply denote_null_iff in Dy; congruence|].
  rewrite Cx, Cy. eexists. split; [reflexivity|]. rewrite <- Dx, <- Dy.
  apply compare_order; try congruence.
  - apply (cast_fits_wf t x); assumption.
  - apply (cast_fits_wf t y); assumption.
  - intros E. unfold is_null in Nx'. rewrite E in Nx'. discriminate.
Qed.
