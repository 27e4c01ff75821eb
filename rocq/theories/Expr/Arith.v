From Verif Require Import Common.Bytes Expr.Value Expr.Model Expr.Spec Expr.Proofs.
Local Open Scope Z_scope.

(* the mathematical result of + - * *)
Definition exact (o : binop) (a b : Z) : option Z :=
  match o with
  | BAdd => Some (a + b) | BSub => Some (a - b) | BMul => Some (a * b) | _ => None
  end.

(* an integer SQL value of type t *)
Definition int_of (t : ptype) (v : value) : Prop := is_int t = true /\ vt v = t /\ wf v.

Lemma int_of_numeric t v : int_of t v -> numeric (vt v).
Proof. intros (I&E&_). left. congruence. Qed.

Lemma int_of_range t v : int_of t v -> in_range t (vz v) = true.
Proof. intros (I&E&W). apply wf_range; auto. destruct t; cbn in *; congruence. Qed.

Lemma int_not_double t : is_int t = true -> is_double t = false.
Proof. destruct t; cbn; congruence. Qed.

Lemma int_of_nn t v : int_of t v -> is_null v = false.
Proof. intros (I&E&_). unfold is_null. rewrite E. destruct t; cbn in I; congruence. Qed.

Lemma signed_range t v : int_of t v -> is_uint t = false -> in_range PI64 (vz v) = true.
Proof.
  intros H U. pose proof (int_of_range _ _ H) as R. destruct H as (I&_&_).
  destruct t; cbn in I, U; try discriminate; unfold in_range in *; cbn [range_of] in *; lia.
Qed.

Lemma unsigned_range t v : int_of t v -> is_uint t = true -> in_range PU64 (vz v) = true.
Proof.
  intros H U. pose proof (int_of_range _ _ H) as R. destruct H as (I&_&_).
  destruct t; cbn in I, U; try discriminate; unfold in_range in *; cbn [range_of] in *; lia.
Qed.

(* any integer cast to the 64-bit type t: the value modulo 2^64 *)
Lemma cast64 ta t v : int_of ta v -> t = PI64 \/ t = PU64 ->
  exists v', cast_to t v = Some v' /\ is_null v' = false /\ vz v' = wrap t (vz v).
Proof.
  intros H Ht. pose proof (int_of_nn _ _ H) as N. pose proof (int_of_numeric _ _ H) as Nm.
  destruct (ptype_eq_dec (vt v) t) as [E|E].
  - exists v. rewrite cast_same by exact E. split; [reflexivity|]. split; [exact N|].
    symmetry. apply wrap_in. destruct H as (I&E2&W). apply wf_range; auto. destruct Ht; subst t; discriminate.
  - unfold cast_to. rewrite N, (ptype_eqb_neq _ _ E). cbn [orb].
    exists (vnum t (wrap t (vz v))). destruct Ht; subst t; rewrite get_int_numeric by exact Nm; auto.
Qed.

Lemma wrap_u z : wrap PU64 z = z mod 2^64.
Proof. unfold wrap. cbn [range_of]. rewrite !Z.sub_0_r, Z.add_0_r. reflexivity. Qed.

Lemma arith_signed o ta tb x y r :
  int_of ta x -> int_of tb y -> is_uint ta = false -> is_uint tb = false ->
  exact o (vz x) (vz y) = Some r ->
  arith_value o ta tb x y = if in_range PI64 r then Some (vnum PI64 r) else None.
Proof.
  intros Hx Hy Ua Ub E. unfold arith_value.
  assert (arith_type o ta tb = PI64) as ->.
  { unfold arith_type. rewrite (int_not_double ta), (int_not_double tb), Ua, Ub by (apply Hx || apply Hy).
    destruct o; try discriminate; reflexivity. }
  destruct (cast64 ta PI64 x Hx) as (x'&Cx&Nx&Zx); [auto|].
  destruct (cast64 tb PI64 y Hy) as (y'&Cy&Ny&Zy); [auto|].
  rewrite Cx, Cy. unfold op_fn. rewrite Nx, Ny. cbn [orb]. rewrite Zx, Zy.
  rewrite !wrap_in by (eapply signed_range; eauto).
  destruct o; cbn [exact] in E; try discriminate; injection E as <-; reflexivity.
Qed.

Lemma arith_unsigned o ta tb x y r :
  int_of ta x -> int_of tb y -> is_uint ta = true \/ is_uint tb = true ->
  exact o (vz x) (vz y) = Some r ->
  arith_value o ta tb x y = Some (vnum PU64 (r mod 2^64)).
Proof.
  intros Hx Hy U E. unfold arith_value.
  assert (arith_type o ta tb = PU64) as ->.
  { unfold arith_type. rewrite (int_not_double ta), (int_not_double tb) by (apply Hx || apply Hy).
    assert (is_uint ta || is_uint tb = true) as -> by (destruct U as [-> | ->]; [reflexivity|apply orb_true_r]).
    destruct o; try discriminate; reflexivity. }
  destruct (cast64 ta PU64 x Hx) as (x'&Cx&Nx&Zx); [auto|].
  destruct (cast64 tb PU64 y Hy) as (y'&Cy&Ny&Zy); [auto|].
  rewrite Cx, Cy. unfold op_fn. rewrite Nx, Ny. cbn [orb]. rewrite Zx, Zy, !wrap_u.
  destruct o; cbn [exact] in E; try discriminate; injection E as <-; cbn [int_result]; rewrite wrap_u; do 2 f_equal.
  - symmetry. apply Zplus_mod.
  - symmetry. apply Zminus_mod.
  - symmetry. apply Zmult_mod.
Qed.

Lemma cast_int64_some ta t v : is_null v = true \/ int_of ta v -> t = PI64 \/ t = PU64 ->
  exists v', cast_to t v = Some v' /\ is_null v' = is_null v.
Proof.
  intros [N|H] Ht.
  - exists v. rewrite cast_null by exact N. auto.
  - destruct (cast64 ta t v H Ht) as (v'&C&N&_). exists v'. split; [exact C|]. rewrite N. symmetry. eapply int_of_nn; eauto.
Qed.

Lemma arith_type_int o ta tb : is_int ta = true -> is_int tb = true ->
  arith_type o ta tb = PI64 \/ arith_type o ta tb = PU64.
Proof.
  intros Ia Ib. unfold arith_type. rewrite (int_not_double ta), (int_not_double tb) by assumption. cbn [orb].
  destruct o; auto; destruct (is_uint ta || is_uint tb); auto.
Qed.

Lemma arith_null o ta tb x y :
  is_int ta = true -> is_int tb = true ->
  (is_null x = true \/ int_of ta x) -> (is_null y = true \/ int_of tb y) ->
  is_null x = true \/ is_null y = true ->
  arith_value o ta tb x y = Some vnull.
Proof.
  intros Ia Ib Hx Hy N. unfold arith_value.
  destruct (cast_int64_some ta _ x Hx (arith_type_int o ta tb Ia Ib)) as (x'&Cx&Nx).
  destruct (cast_int64_some tb _ y Hy (arith_type_int o ta tb Ia Ib)) as (y'&Cy&Ny).
  rewrite Cx, Cy. unfold op_fn. rewrite Nx, Ny.
  destruct N as [-> | ->]; [reflexivity|]. rewrite orb_true_r. reflexivity.
Qed.

(* remainder *)
Lemma mod_signed ta tb x y :
  int_of ta x -> int_of tb y -> is_uint ta = false -> is_uint tb = false ->
  arith_value BMod ta tb x y =
    if vz y =? 0 then Some vnull
    else if (vz x =? - 2^63) && (vz y =? -1) then None
    else Some (vnum PI64 (Z.rem (vz x) (vz y))).
Proof.
  intros Hx Hy Ua Ub. unfold arith_value. cbn [arith_type]. rewrite Ua, Ub. cbn [orb].
  destruct (cast64 ta PI64 x Hx) as (x'&Cx&Nx&Zx); [auto|].
  destruct (cast64 tb PI64 y Hy) as (y'&Cy&Ny&Zy); [auto|].
  rewrite Cx, Cy. unfold op_fn. rewrite Nx, Ny. cbn [orb]. rewrite Zx, Zy.
  pose proof (signed_range _ _ Hx Ua) as Rx. pose proof (signed_range _ _ Hy Ub) as Ry.
  rewrite !wrap_in by assumption.
  destruct (Z.eqb_spec (vz y) 0) as [E|E]; [reflexivity|].
  unfold in_range in Rx, Ry |- *. cbn [range_of] in *.
  assert (Q : (- 2 ^ 63 <=? Z.quot (vz x) (vz y)) && (Z.quot (vz x) (vz y) <? 2 ^ 63) =
              negb ((vz x =? - 2 ^ 63) && (vz y =? -1))).
  { destruct (Z.eqb_spec (vz y) (-1)) as [Ey|Ey].
    - rewrite Ey. rewrite andb_true_r. change (-1) with (- (1)). rewrite Z.quot_opp_r by lia. rewrite Z.quot_1_r.
      destruct (Z.eqb_spec (vz x) (- 2^63)); lia.
    - rewrite andb_false_r. cbn [negb].
      destruct (Z.eq_dec (vz y) 1) as [E1|E1]; [rewrite E1, Z.quot_1_r; lia|].
      assert (Z.abs (Z.quot (vz x) (vz y)) < 2^63); [|lia].
      rewrite <- Z.quot_abs by exact E.
      apply Z.le_lt_trans with (Z.abs (vz x) / 2).
      + rewrite <- (Z.quot_div_nonneg (Z.abs (vz x)) 2) by lia. apply Z.quot_le_compat_l; lia.
      + apply Z.div_lt_upper_bound; lia. }
  rewrite Q. destruct ((vz x =? - 2 ^ 63) && (vz y =? -1)); reflexivity.
Qed.

Lemma nonneg_u t v : int_of t v -> 0 <= vz v -> in_range PU64 (vz v) = true.
Proof.
  intros H P. pose proof (int_of_range _ _ H) as R. destruct H as (It&_&_).
  destruct t; cbn in It; try discriminate; unfold in_range in *; cbn [range_of] in *; lia.
Qed.

Lemma mod_unsigned ta tb x y :
  int_of ta x -> int_of tb y -> is_uint ta = true \/ is_uint tb = true ->
  0 <= vz x -> 0 <= vz y ->
  arith_value BMod ta tb x y =
    if vz y =? 0 then Some vnull else Some (vnum PU64 (vz x mod vz y)).
Proof.
  intros Hx Hy U Px Py. unfold arith_value. cbn [arith_type].
  assert (is_uint ta || is_uint tb = true) as -> by (destruct U as [-> | ->]; [reflexivity|apply orb_true_r]).
  destruct (cast64 ta PU64 x Hx) as (x'&Cx&Nx&Zx); [auto|].
  destruct (cast64 tb PU64 y Hy) as (y'&Cy&Ny&Zy); [auto|].
  rewrite Cx, Cy. unfold op_fn. rewrite Nx, Ny. cbn [orb]. rewrite Zx, Zy.
  pose proof (nonneg_u _ _ Hx Px) as Rx. pose proof (nonneg_u _ _ Hy Py) as Ry.
  rewrite !wrap_in by assumption.
  destruct (Z.eqb_spec (vz y) 0) as [E|E]; [reflexivity|].
  rewrite Z.quot_div_nonneg, Z.rem_mod_nonneg by lia.
  assert (in_range PU64 (vz x / vz y) = true) as ->; [|reflexivity].
  unfold in_range in *. cbn [range_of] in *.
  assert (0 <= vz x / vz y) by (apply Z.div_pos; lia).
  assert (vz x / vz y <= vz x) by (apply Z.div_le_upper_bound; nia). lia.
Qed.
