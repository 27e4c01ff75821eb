(* Values of a column and the constants it is compared with: comparison, IN keys and texts
   agree on equality. *)
From Coq Require Import Decimal DecimalZ DecimalFacts DecimalPos.
From Verif Require Import Common.Bytes Common.KV Expr.Value Expr.Model Expr.Spec Expr.Proofs Expr.RowCompare Expr.Mixed Cut.Model Cut.Spec.
Local Open Scope Z_scope.

Definition eqv2 (x y : value) : Prop := order (denote x) (denote y) = Some Eq.

Lemma fit_fits t v : usable t -> fit t v -> fits (arg t) v.
Proof.
  intros (N&B) (W&[H|[H|H]]); [left; exact H| |]; right; unfold wf in W; rewrite H in W;
    destruct t; cbn in *; try congruence; try (split; [left; rewrite H; reflexivity|lia]); auto.
Qed.

Lemma fit_common t x y : usable t -> fit t x -> fit t y -> is_null x = false -> is_null y = false ->
  vt x <> vt y -> common (vt x) (vt y) = arg t.
Proof.
  intros (N&B) (_&[?|[Hx|Hx]]) (_&[?|[Hy|Hy]]) Nx Ny D; try congruence; rewrite Hx, Hy;
    rewrite Hx, Hy in D; destruct t; cbn in *; congruence.
Qed.

Lemma usable_arg t : usable t -> usable (arg t).
Proof. intros (N&B). destruct t; split; cbn; congruence. Qed.

(* comparison of two such values *)
Lemma fit_compare t x y : usable t -> fit t x -> fit t y -> is_null x = false -> is_null y = false ->
  exists c, compare_diff_type x y = Some c /\ order (denote x) (denote y) = Some (c ?= 0).
Proof.
  intros U Fx Fy Nx Ny. destruct (ptype_eq_dec (vt x) (vt y)) as [E|E].
  - unfold compare_diff_type. rewrite E, ptype_eqb_refl. eexists. split; [reflexivity|].
    apply compare_order; [apply Fx|apply Fy|exact E|]. intros E2. apply is_null_vt in E2. congruence.
  - pose proof (fit_common t x y U Fx Fy Nx Ny E) as K.
    apply mixed_order; [apply Fx|apply Fy|exact Nx|exact Ny|exact E| | |];
      rewrite K; try (apply fit_fits; assumption).
    apply usable_arg in U. apply U.
Qed.

Lemma fit_order t x y : usable t -> fit t x -> fit t y -> is_null x = false -> is_null y = false ->
  exists c, order (denote x) (denote y) = Some c.
Proof. intros. destruct (fit_compare t x y) as (c&_&E); auto. eauto. Qed.

Lemma fit_cmp t o x y : usable t -> fit t x -> fit t y ->
  exists v, cmp_value (arg t) o x y = Some v /\ denote v = of_tv (cmp3 o (denote x) (denote y)).
Proof. intros U Fx Fy. apply cmp_value_ok; [apply Fx|apply Fy| |]; apply fit_fits; assumption. Qed.

(* the type of IN keys *)
Definition mt (t : ptype) : ptype := if is_int t then PI64 else t.

Lemma mt_in t a b : usable t -> (a = t \/ a = arg t) -> (b = t \/ b = arg t) -> in_map_type a b = mt t.
Proof. intros (N&B) [-> | ->] [-> | ->]; destruct t; try congruence; reflexivity. Qed.

Definition wide (t : ptype) : ptype := arg t.

Lemma fit_int t x : usable t -> is_int t = true -> fit t x -> is_null x = false ->
  is_int (vt x) = true /\ in_range (arg t) (vz x) = true /\ vk x = O /\ vs x = [].
Proof.
  intros (N&B) It (W&[H|[H|H]]) Nx; [congruence| |]; unfold wf in W; rewrite H in W; rewrite ?H;
    destruct t; cbn in It; try discriminate; cbn in *;
    (split; [reflexivity|split; [apply andb_true_intro; split; lia|intuition]]).
Qed.

Lemma fit_other t x : usable t -> is_int t = false -> fit t x -> is_null x = false -> vt x = t.
Proof. intros (N&B) It (W&[H|[H|H]]) Nx; [congruence|auto|]. destruct t; cbn in *; congruence. Qed.

Lemma cast_mt t x : usable t -> fit t x -> is_null x = false -> exists x', cast_to (mt t) x = Some x' /\
  (if is_int t then vt x' = PI64 /\ vz x' = wrap PI64 (vz x) else x' = x).
Proof.
  intros U F Nx. unfold mt. destruct (is_int t) eqn:It.
  - destruct (fit_int t x U It F Nx) as (Ix&_).
    destruct (cast_to PI64 x) as [x'|] eqn:Ec.
    + exists x'. split; [reflexivity|]. apply cast_pi64; auto. apply F.
    + exfalso. unfold cast_to in Ec. rewrite Nx in Ec. cbn [orb] in Ec.
      destruct (ptype_eqb (vt x) PI64); [discriminate|].
      rewrite get_int_numeric in Ec by (left; exact Ix). discriminate.
  - pose proof (fit_other t x U It F Nx) as E. exists x. rewrite cast_same by exact E. auto.
Qed.

Lemma order_int_eq x y : is_int (vt x) = true -> is_int (vt y) = true -> vk x = O -> vk y = O ->
  order (denote x) (denote y) = Some (vz x ?= vz y).
Proof.
  intros Ix Iy Kx Ky. unfold denote. destruct (vt x); cbn in Ix; try discriminate;
    destruct (vt y); cbn in Iy; try discriminate; cbn [order]; rewrite Kx, Ky; cbn; rewrite !Z.mul_1_r; reflexivity.
Qed.

Lemma is_int_arg t : is_int t = true -> is_int (arg t) = true.
Proof. destruct t; cbn; congruence. Qed.

(* IN keys *)
Lemma fit_key t x y x' y' : usable t -> fit t x -> fit t y -> is_null x = false -> is_null y = false ->
  cast_to (mt t) x = Some x' -> cast_to (mt t) y = Some y' ->
  same_key x' y' = Some (match order (denote x) (denote y) with Some Eq => true | _ => false end).
Proof.
  intros U Fx Fy Nx Ny Cx Cy. destruct (is_int t) eqn:It.
  - destruct (fit_int t x U It Fx Nx) as (Ix&Rx&Kx&_). destruct (fit_int t y U It Fy Ny) as (Iy&Ry&Ky&_).
    destruct (cast_mt t x U Fx Nx) as (x2&Cx2&Hx). destruct (cast_mt t y U Fy Ny) as (y2&Cy2&Hy).
    rewrite It in Hx, Hy. rewrite Cx in Cx2. rewrite Cy in Cy2. injection Cx2 as <-. injection Cy2 as <-.
    destruct Hx as (Tx&Zx), Hy as (Ty&Zy). unfold same_key. rewrite Tx.
    unfold get_int. rewrite Tx, Ty, Zx, Zy.
    assert (W : forall z, wrap PI64 (wrap PI64 z) = wrap PI64 z).
    { intros z. apply wrap_in. unfold in_range, wrap. cbn [range_of].
      pose proof (Z.mod_pos_bound (z - - 2 ^ 63) (2 ^ 63 - - 2 ^ 63) ltac:(lia)). apply andb_true_intro. split; lia. }
    rewrite !W, (denote_inj_range (arg t)) by auto using is_int_arg.
    rewrite order_int_eq by assumption. destruct (Z.compare_spec (vz x) (vz y)) as [E|E|E].
    + rewrite E, Z.eqb_refl. reflexivity.
    + f_equal. apply Z.eqb_neq. lia.
    + f_equal. apply Z.eqb_neq. lia.
  - pose proof (fit_other t x U It Fx Nx) as Tx. pose proof (fit_other t y U It Fy Ny) as Ty.
    assert (mt t = t) as M by (unfold mt; rewrite It; reflexivity).
    destruct U as (N&B). apply (key_eq t x y x' y'); auto; try apply Fx; try apply Fy;
      rewrite in_map_self, It by assumption; rewrite <- M at 1; assumption.
Qed.

(* ---- decimal texts ---- *)

Lemma uint_text_inj u : forall w, uint_text u = uint_text w -> u = w.
Proof. induction u; intros w E; destruct w; cbn in E; try discriminate; try reflexivity; f_equal; apply IHu; congruence. Qed.

Lemma uint_text_no45 u w : 45 :: uint_text u <> uint_text w.
Proof. destruct w; cbn; intros E; discriminate. Qed.

Lemma to_string_inj a b : to_string a = to_string b -> a = b.
Proof.
  intros E. assert (Z.to_int a = Z.to_int b) as T.
  { unfold to_string in E. destruct (Z.to_int a), (Z.to_int b).
    - f_equal. apply uint_text_inj. exact E.
    - symmetry in E. apply uint_text_no45 in E. contradiction.
    - apply uint_text_no45 in E. contradiction.
    - f_equal. apply uint_text_inj. congruence. }
  apply (f_equal Z.of_int) in T. rewrite !DecimalZ.of_to in T. exact T.
Qed.

Lemma uint_text_digits u : Forall (fun c => 48 <= c <= 57) (uint_text u).
Proof. induction u; cbn; constructor; auto; lia. Qed.
Lemma to_string_bytes z : Forall (fun c => 45 <= c <= 57) (to_string z).
Proof.
  unfold to_string. destruct (Z.to_int z); [|constructor; [lia|]];
    eapply Forall_impl; try apply uint_text_digits; cbn; intros; lia.
Qed.
Lemma to_string_nonempty z : to_string z <> [].
Proof.
  unfold to_string. destruct z as [|p|p]; cbn; try discriminate.
  intros E. assert (Pos.to_uint p = Decimal.Nil) as N by (destruct (Pos.to_uint p); cbn in E; try discriminate; reflexivity).
  pose proof (DecimalPos.Unsigned.of_to p) as O. rewrite N in O. discriminate.
Qed.

(* texts agree exactly when the values do *)
Lemma fit_text t x y sx sy : usable t -> fit t x -> fit t y -> is_null x = false -> is_null y = false ->
  get_string x = Some sx -> get_string y = Some sy ->
  (sx = sy <-> eqv2 x y).
Proof.
  intros U Fx Fy Nx Ny Gx Gy. unfold eqv2. destruct (is_int t) eqn:It.
  - destruct (fit_int t x U It Fx Nx) as (Ix&_&Kx&_). destruct (fit_int t y U It Fy Ny) as (Iy&_&Ky&_).
    rewrite order_int_eq by assumption.
    assert (sx = to_string (vz x)) as -> by (unfold get_string in Gx; destruct (vt x); cbn in Ix; congruence).
    assert (sy = to_string (vz y)) as -> by (unfold get_string in Gy; destruct (vt y); cbn in Iy; congruence).
    split; intros E.
    + apply to_string_inj in E. rewrite E, Z.compare_refl. reflexivity.
    + injection E as E. apply Z.compare_eq in E. congruence.
  - pose proof (fit_other t x U It Fx Nx) as Tx. pose proof (fit_other t y U It Fy Ny) as Ty.
    unfold get_string in Gx, Gy. rewrite Tx in Gx. rewrite Ty in Gy. destruct U as (N&B).
    destruct t; cbn in It; try congruence. injection Gx as <-. injection Gy as <-.
    unfold denote. rewrite Tx, Ty. cbn [order]. split; intros E.
    + rewrite E, bcompare_refl. reflexivity.
    + injection E as E. apply bcompare_eq. exact E.
Qed.

Lemma fit_text_null t x y : usable t -> (t = PString -> False) -> fit t x -> is_null x = false -> is_null y = true ->
  get_string x <> get_string y \/ get_string x = None.
Proof.
  intros U NS Fx Nx Ny. apply is_null_vt in Ny.
  assert (get_string y = Some []) as -> by (unfold get_string; rewrite Ny; reflexivity).
  destruct (is_int t) eqn:It.
  - destruct (fit_int t x U It Fx Nx) as (Ix&_). left. unfold get_string.
    destruct (vt x); cbn in Ix; try discriminate; intros E; injection E as E; exact (to_string_nonempty _ E).
  - pose proof (fit_other t x U It Fx Nx) as Tx. unfold get_string. rewrite Tx. destruct U.
    destruct t; cbn in It; try congruence; auto.
Qed.

(* row keys *)
Lemma fit_key_text t x y x' y' : usable t -> t <> PDouble -> fit t x -> fit t y -> is_null x = false -> is_null y = false ->
  cast_to (mt t) x = Some x' -> cast_to (mt t) y = Some y' ->
  exists sx sy, int_text x' = Some sx /\ int_text y' = Some sy /\ (sx = sy <-> eqv2 x y) /\
    (t <> PString -> ~ List.In 0 sx) /\ (t = PString -> sx = vs x).
Proof.
  intros U ND Fx Fy Nx Ny Cx Cy. pose proof (fit_key t x y x' y' U Fx Fy Nx Ny Cx Cy) as K.
  destruct (cast_mt t x U Fx Nx) as (x2&Cx2&Hx). destruct (cast_mt t y U Fy Ny) as (y2&Cy2&Hy).
  rewrite Cx in Cx2. rewrite Cy in Cy2. injection Cx2 as <-. injection Cy2 as <-.
  assert (D0 : forall z, ~ List.In 0 (to_string z)).
  { intros z Hi. pose proof (to_string_bytes z) as F. rewrite Forall_forall in F. apply F in Hi. lia. }
  destruct (is_int t) eqn:It.
  - destruct Hx as (Tx&Zx), Hy as (Ty&Zy). unfold int_text. rewrite Tx, Ty. do 2 eexists. do 2 (split; [reflexivity|]).
    split; [|split; [auto|intros ->; discriminate]].
    unfold same_key in K. rewrite Tx in K. unfold get_int in K. rewrite Tx, Ty in K.
    assert (W : forall z, wrap PI64 (wrap PI64 z) = wrap PI64 z).
    { intros z. apply wrap_in. unfold in_range, wrap. cbn [range_of].
      pose proof (Z.mod_pos_bound (z - - 2 ^ 63) (2 ^ 63 - - 2 ^ 63) ltac:(lia)). apply andb_true_intro. split; lia. }
    rewrite Zx, Zy, !W in K. injection K as K. rewrite Zx, Zy. unfold eqv2.
    destruct (fit_order t x y U Fx Fy Nx Ny) as (c&Ec). rewrite Ec in *. split; intros E.
    + apply to_string_inj in E. rewrite E, Z.eqb_refl in K. destruct c; congruence.
    + injection E as ->. apply Z.eqb_eq in K. congruence.
  - subst x' y'. pose proof (fit_other t x U It Fx Nx) as Tx. pose proof (fit_other t y U It Fy Ny) as Ty.
    unfold int_text. rewrite Tx, Ty. destruct U as (N&B).
    assert (vk x = O /\ vk y = O) as (Kx&Ky).
    { split; apply wf_k; try apply Fx; try apply Fy; congruence. }
    unfold eqv2. destruct t; cbn in It; try congruence; do 2 eexists; (do 2 (split; [reflexivity|]));
      (split; [|split; [intros; (apply D0) || congruence|intros; (congruence || reflexivity)]]);
      try (rewrite (order_num x y Kx Ky) by congruence; split;
           [intros E; apply to_string_inj in E; rewrite E, Z.compare_refl; reflexivity
           |intros E; injection E as E; apply Z.compare_eq in E; congruence]).
    unfold denote. rewrite Tx, Ty. cbn [order]. split; intros E.
    + rewrite E, bcompare_refl. reflexivity.
    + injection E as E. apply bcompare_eq. exact E.
Qed.

(* equal values are interchangeable *)
Lemma eqv2_sym x y : eqv2 x y -> eqv2 y x.
Proof. unfold eqv2. intros E. rewrite order_antisym, E. reflexivity. Qed.

Lemma order_eq_l x y z : order x y = Some Eq -> order x z = order y z.
Proof.
  destruct x as [|m k|s], y as [|m' k'|s'], z as [|n j|u]; cbn; try congruence.
  - intros E. injection E as E. apply Z.compare_eq in E. f_equal.
    set (a := 2 ^ Z.of_nat k) in *. set (b := 2 ^ Z.of_nat k') in *. set (c := 2 ^ Z.of_nat j) in *.
    assert (0 < a) by (apply Z.pow_pos_nonneg; lia).
    assert (0 < b) by (apply Z.pow_pos_nonneg; lia).
    destruct (Z.compare_spec (m * c) (n * a)), (Z.compare_spec (m' * c) (n * b)); auto; exfalso; nia.
  - intros E. injection E as E. apply bcompare_eq in E. congruence.
Qed.
Lemma eqv2_l x y z : eqv2 x y -> order (denote x) (denote z) = order (denote y) (denote z).
Proof. apply order_eq_l. Qed.
Lemma eqv2_null x y : eqv2 x y -> is_null x = false /\ is_null y = false.
Proof.
  unfold eqv2. intros E. split; apply not_true_is_false; intros N;
    rewrite order_denote_null in E by auto; discriminate.
Qed.
Lemma eqv2_trans x y z : eqv2 x y -> eqv2 y z -> eqv2 x z.
Proof. unfold eqv2 at 3. intros A B. rewrite (eqv2_l x y) by exact A. exact B. Qed.
