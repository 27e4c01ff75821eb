From Coq Require Import Decimal DecimalZ.
From Verif Require Import Common.Bytes Expr.Value Expr.Model Expr.Spec.
Local Open Scope Z_scope.

(* ---- induction over expressions ---- *)
Section ind.
Variable P : expr -> Prop.
Hypothesis hslot : forall i t, P (ESlot i t).
Hypothesis hlit : forall v, P (ELit v).
Hypothesis hand : forall l, Forall P l -> P (EAnd l).
Hypothesis hor : forall l, Forall P l -> P (EOr l).
Hypothesis hxor : forall a b, P a -> P b -> P (EXor a b).
Hypothesis hnot : forall a, P a -> P (ENot a).
Hypothesis hisnull : forall a, P a -> P (EIsNull a).
Hypothesis histrue : forall a, P a -> P (EIsTrue a).
Hypothesis hcmp : forall o a b, P a -> P b -> P (ECmp o a b).
Hypothesis hin : forall x l, P x -> Forall P l -> P (EIn x l).
Fixpoint expr_ind2 (e : expr) : P e :=
  let fix go (l : list expr) : Forall P l :=
    match l with [] => Forall_nil _ | c :: r => Forall_cons _ (expr_ind2 c) (go r) end in
  match e with
  | ESlot i t => hslot i t
  | ELit v => hlit v
  | EAnd l => hand l (go l)
  | EOr l => hor l (go l)
  | EXor a b => hxor a b (expr_ind2 a) (expr_ind2 b)
  | ENot a => hnot a (expr_ind2 a)
  | EIsNull a => hisnull a (expr_ind2 a)
  | EIsTrue a => histrue a (expr_ind2 a)
  | ECmp o a b => hcmp o a b (expr_ind2 a) (expr_ind2 b)
  | EIn x l => hin x l (expr_ind2 x) (go l)
  end.
End ind.

(* ---- ranges and wrapping ---- *)

Lemma wrap_in t z : in_range t z = true -> wrap t z = z.
Proof.
  unfold in_range, wrap. destruct (range_of t) as [[lo hi]|]; [|discriminate].
  intros H. assert (lo <= z < hi) by lia.
  rewrite Z.mod_small by lia. lia.
Qed.

Lemma wf_range v t : wf v -> vt v = t -> range_of t <> None -> in_range t (vz v) = true.
Proof.
  unfold wf, in_range. intros H E N. rewrite E in H.
  destruct t; cbn [range_of] in *; try congruence; lia.
Qed.

(* ---- C38: compare on one type ---- *)

Lemma cmp_sub_sign a b : (a ?= b) = (a - b ?= 0).
Proof. destruct (Z.compare_spec a b), (Z.compare_spec (a - b) 0); auto; lia. Qed.

Lemma of_cmp_sign c : (of_cmp c ?= 0) = c.
Proof. destruct c; reflexivity. Qed.

Lemma other_same t o : in_range t (vz o) = true -> other_num t o = vz o.
Proof. apply wrap_in. Qed.

Lemma order_num x y :
  vk x = O -> vk y = O -> vt x = vt y -> vt x <> PNull -> vt x <> PString ->
  order (denote x) (denote y) = Some (vz x ?= vz y).
Proof.
  intros K1 K2 E N1 N2. unfold denote. rewrite <- E.
  destruct (vt x); try congruence; cbn [order]; rewrite K1, K2; cbn; rewrite !Z.mul_1_r; reflexivity.
Qed.

Lemma compare_order x y :
  wf x -> wf y -> vt x = vt y -> vt x <> PNull ->
  order (denote x) (denote y) = Some (compare x y ?= 0).
Proof.
  intros Wx Wy E N.
  destruct (ptype_eq_dec (vt x) PString) as [S|S].
  { unfold denote, compare. rewrite <- E, S. cbn [order]. rewrite of_cmp_sign. reflexivity. }
  destruct (ptype_eq_dec (vt x) PDouble) as [D|D].
  { unfold denote, compare, dbl_compare. rewrite <- E, D. cbn [order]. rewrite of_cmp_sign. reflexivity. }
  assert (R : range_of (vt x) <> None) by (destruct (vt x); cbn; congruence).
  pose proof (wf_range _ _ Wx eq_refl R) as Ix.
  assert (R' : range_of (vt y) <> None) by (rewrite <- E; exact R).
  pose proof (wf_range _ _ Wy eq_refl R') as Iy. rewrite <- E in Iy.
  assert (vk x = O /\ vk y = O) as [Kx Ky].
  { unfold wf in Wx, Wy. rewrite <- E in Wy. destruct (vt x); cbn in *; try congruence; intuition. }
  rewrite order_num by assumption. f_equal.
  unfold compare. destruct (vt x) eqn:T; try congruence;
    first [ rewrite other_same by (exact Iy); rewrite ?of_cmp_sign; try reflexivity; apply cmp_sub_sign
          | idtac ].
Qed.

Lemma compare_null_null x y : vt x = PNull -> vt y = PNull -> compare x y = 0.
Proof. intros A B. unfold compare, is_null. rewrite A, B. reflexivity. Qed.

(* ---- casts that keep the value ---- *)

Lemma ptype_eqb_refl t : ptype_eqb t t = true.
Proof. unfold ptype_eqb. destruct (ptype_eq_dec t t); congruence. Qed.
Lemma ptype_eqb_true a b : ptype_eqb a b = true <-> a = b.
Proof. unfold ptype_eqb. destruct (ptype_eq_dec a b); split; congruence. Qed.
Lemma ptype_eqb_neq a b : a <> b -> ptype_eqb a b = false.
Proof. unfold ptype_eqb. destruct (ptype_eq_dec a b); congruence. Qed.

Lemma cast_null t v : is_null v = true -> cast_to t v = Some v.
Proof. unfold cast_to. intros ->. reflexivity. Qed.
Lemma cast_same t v : vt v = t -> cast_to t v = Some v.
Proof. unfold cast_to. intros ->. rewrite ptype_eqb_refl, orb_true_r. reflexivity. Qed.
Lemma is_null_vt v : is_null v = true <-> vt v = PNull.
Proof. unfold is_null. destruct (vt v); split; congruence. Qed.

Lemma numeric_not t : numeric t -> t <> PNull /\ t <> PString /\ t <> PDouble.
Proof. intros [H| ->]; [destruct t; cbn in H; try discriminate|]; repeat split; discriminate. Qed.

Lemma get_int_numeric t v : numeric (vt v) -> get_int t v = Some (wrap t (vz v)).
Proof. intros H. unfold get_int. destruct H as [H|H]; [destruct (vt v); cbn in H; try discriminate|rewrite H]; reflexivity. Qed.

Lemma cast_int t v :
  is_int t = true -> numeric (vt v) -> in_range t (vz v) = true -> wf v ->
  exists v', cast_to t v = Some v' /\ vt v' = t /\ vz v' = vz v /\ vk v' = O.
Proof.
  intros It Nv R W.
  assert (K : vk v = O).
  { unfold wf in W. destruct (numeric_not _ Nv) as (?&?&?).
    destruct (vt v); cbn in W; try congruence; intuition. }
  destruct (ptype_eq_dec (vt v) t) as [E|E].
  { exists v. rewrite cast_same by exact E. auto. }
  exists (vnum t (vz v)). split; [|auto].
  unfold cast_to. destruct (numeric_not _ Nv) as (N1&N2&N3).
  assert (is_null v = false) as -> by (unfold is_null; destruct (vt v); congruence).
  rewrite (ptype_eqb_neq _ _ E). cbn [orb].
  destruct t; cbn in It; try discriminate; rewrite get_int_numeric, wrap_in by assumption; reflexivity.
Qed.

Lemma cast_double v :
  numeric (vt v) -> Z.abs (vz v) <= 2^53 -> cast_to PDouble v = Some (vdbl (vz v) 0).
Proof.
  intros Nv R. unfold cast_to. destruct (numeric_not _ Nv) as (N1&N2&N3).
  assert (is_null v = false) as -> by (unfold is_null; destruct (vt v); congruence).
  rewrite (ptype_eqb_neq _ _ N3). cbn [orb].
  assert (round53 (vz v) = vz v) as E.
  { unfold round53. rewrite (proj2 (Z.leb_le _ _)); [reflexivity|exact R]. }
  rewrite E. destruct (vt v); congruence.
Qed.

(* what a fitting value becomes under the cast: it is NULL, or keeps its SQL value, and
   all casts to t have the same representation *)
Lemma wf_numeric_k v : wf v -> numeric (vt v) -> vk v = O.
Proof.
  intros W N. unfold wf in W. destruct (numeric_not _ N) as (?&?&?).
  destruct (vt v); cbn in W; try congruence; intuition.
Qed.

Lemma cast_fits t v : wf v -> fits t v -> 
  exists v', cast_to t v = Some v' /\
    ((is_null v' = true /\ denote v = SNull) \/ (vt v' = t /\ denote v' = denote v /\ is_null v' = false)).
Proof.
  intros W [N|F].
  { exists v. rewrite cast_null by exact N. split; [reflexivity|]. left. split; [exact N|].
    apply is_null_vt in N. unfold denote. rewrite N. reflexivity. }
  destruct t; try contradiction.
  - (* PI64 *)
    destruct F as [Nv R]. destruct (cast_int PI64 v eq_refl Nv) as (v'&C&T&Z1&K1).
    { unfold in_range; cbn. lia. } { exact W. }
    exists v'. split; [exact C|]. right. split; [exact T|]. split.
    + unfold denote. rewrite T, Z1, K1. pose proof (wf_numeric_k _ W Nv) as K.
      destruct (numeric_not _ Nv) as (?&?&?). rewrite K. destruct (vt v); congruence.
    + unfold is_null. rewrite T. reflexivity.
  - (* PU64 *)
    destruct F as [Nv R]. destruct (cast_int PU64 v eq_refl Nv) as (v'&C&T&Z1&K1).
    { unfold in_range; cbn. lia. } { exact W. }
    exists v'. split; [exact C|]. right. split; [exact T|]. split.
    + unfold denote. rewrite T, Z1, K1. pose proof (wf_numeric_k _ W Nv) as K.
      destruct (numeric_not _ Nv) as (?&?&?). rewrite K. destruct (vt v); congruence.
    + unfold is_null. rewrite T. reflexivity.
  - exists v. rewrite cast_same by exact F. split; [reflexivity|]. right. unfold is_null. rewrite F. auto.
  - exists v. rewrite cast_same by exact F. split; [reflexivity|]. right. unfold is_null. rewrite F. auto.
  - exists v. rewrite cast_same by exact F. split; [reflexivity|]. right. unfold is_null. rewrite F. auto.
  - exists v. rewrite cast_same by exact F. split; [reflexivity|]. right. unfold is_null. rewrite F. auto.
  - destruct F as [F|[Nv R]].
    + exists v. rewrite cast_same by exact F. split; [reflexivity|]. right. unfold is_null. rewrite F. auto.
    + exists (vdbl (vz v) 0). rewrite cast_double by assumption. split; [reflexivity|]. right.
      split; [reflexivity|]. split; [|reflexivity].
      unfold denote. cbn. pose proof (wf_numeric_k _ W Nv) as K. rewrite K.
      destruct (numeric_not _ Nv) as (?&?&?). destruct (vt v); congruence.
  - exists v. rewrite cast_same by exact F. split; [reflexivity|]. right. unfold is_null. rewrite F. auto.
Qed.

Lemma fits_type t v : fits t v -> is_null v = false -> t <> PNull /\ t <> PBool.
Proof. intros [H|H] N; [congruence|]. destruct t; try contradiction; split; discriminate. Qed.

(* native comparison of two values of one type is the order of their SQL values *)
Lemma native_order x y t :
  vt x = t -> vt y = t -> t <> PNull -> (t <> PDouble -> vk x = O /\ vk y = O) ->
  order (denote x) (denote y) = Some (native x y).
Proof.
  intros Tx Ty N K. unfold native. rewrite Tx.
  destruct (ptype_eq_dec t PString) as [S|S].
  { unfold denote. rewrite Tx, Ty, S. reflexivity. }
  destruct (ptype_eq_dec t PDouble) as [D|D].
  { unfold denote. rewrite Tx, Ty, D. reflexivity. }
  destruct (K D) as [K1 K2]. rewrite order_num by (congruence || assumption).
  destruct t; try congruence; reflexivity.
Qed.

Lemma cmp_holds_rel o c : cmp_holds o c = rel o c.
Proof. destruct o, c; reflexivity. Qed.

Lemma denote_null v : is_null v = true -> denote v = SNull.
Proof. intros N. apply is_null_vt in N. unfold denote. rewrite N. reflexivity. Qed.
Lemma denote_null_iff v : (denote v = SNull) <-> is_null v = true.
Proof. unfold denote, is_null. destruct (vt v); split; congruence. Qed.

Lemma order_denote_null x y : is_null x = true \/ is_null y = true -> order (denote x) (denote y) = None.
Proof.
  intros [H|H]; rewrite (denote_null _ H); [reflexivity|]. destruct (denote x); reflexivity.
Qed.

Lemma denote_k v v' t : vt v' = t -> t <> PString -> t <> PNull -> denote v' = denote v -> vk v' = vk v.
Proof.
  intros T S N E. unfold denote in E. rewrite T in E. destruct t; try congruence; destruct (vt v); congruence.
Qed.

Lemma wf_k v : wf v -> vt v <> PDouble -> vk v = O.
Proof. intros W N. unfold wf in W. destruct (vt v); cbn in W; try congruence; intuition. Qed.

Lemma cast_k t v v' : wf v -> fits t v -> cast_to t v = Some v' -> is_null v' = false -> t <> PDouble -> vk v' = O.
Proof.
  intros W F C N D. destruct F as [Nv|F].
  { rewrite cast_null in C by exact Nv. injection C as <-. congruence. }
  destruct t; try contradiction; try congruence.
  - destruct F as [Nv R]. destruct (cast_int PI64 v eq_refl Nv) as (w&C'&_&_&K); [unfold in_range; cbn; lia|exact W|]. congruence.
  - destruct F as [Nv R]. destruct (cast_int PU64 v eq_refl Nv) as (w&C'&_&_&K); [unfold in_range; cbn; lia|exact W|]. congruence.
  - rewrite cast_same in C by exact F. injection C as <-. apply wf_k; [exact W|congruence].
  - rewrite cast_same in C by exact F. injection C as <-. apply wf_k; [exact W|congruence].
  - rewrite cast_same in C by exact F. injection C as <-. apply wf_k; [exact W|congruence].
  - rewrite cast_same in C by exact F. injection C as <-. apply wf_k; [exact W|congruence].
  - rewrite cast_same in C by exact F. injection C as <-. apply wf_k; [exact W|congruence].
Qed.

Lemma cmp_value_ok t o x y :
  wf x -> wf y -> fits t x -> fits t y ->
  exists v, cmp_value t o x y = Some v /\ denote v = of_tv (cmp3 o (denote x) (denote y)).
Proof.
  intros Wx Wy Fx Fy.
  destruct (cast_fits _ _ Wx Fx) as (x'&Cx&Hx). destruct (cast_fits _ _ Wy Fy) as (y'&Cy&Hy).
  unfold cmp_value. rewrite Cx, Cy. eexists. split; [reflexivity|].
  unfold predicate_fn, cmp3.
  destruct Hx as [[Nx Dx]|(Tx&Dx&Nx)].
  { rewrite Nx. cbn [orb]. rewrite Dx. reflexivity. }
  rewrite Nx. cbn [orb].
  destruct Hy as [[Ny Dy]|(Ty&Dy&Ny)].
  { rewrite Ny. rewrite Dy. destruct (denote x); reflexivity. }
  rewrite Ny. rewrite <- Dx, <- Dy.
  rewrite (native_order x' y' t); try assumption;
    [| intros ->; unfold is_null in Nx; rewrite Tx in Nx; discriminate
     | intros D; split; [apply (cast_k t x)|apply (cast_k t y)]; assumption ].
  cbn [option_map of_tv]. rewrite cmp_holds_rel. reflexivity.
Qed.

(* ---- IN ---- *)

Lemma denote_inj_range t a b :
  is_int t = true -> in_range t a = true -> in_range t b = true ->
  (wrap PI64 a =? wrap PI64 b) = (a =? b).
Proof.
  intros It Ra Rb.
  destruct (Z.eqb_spec a b) as [->|N]; [apply Z.eqb_refl|].
  apply Z.eqb_neq. intros E. apply N. unfold wrap in E. cbn [range_of] in E.
  unfold in_range in Ra, Rb.
  assert (H : (a - b) mod 2^64 = 0).
  { replace (2^63 - - 2^63) with (2^64) in E by reflexivity.
    replace (a - b) with ((a - - 2^63) - (b - - 2^63)) by lia. rewrite Zminus_mod.
    replace ((a - - 2^63) mod 2^64) with ((b - - 2^63) mod 2^64) by lia.
    rewrite Z.sub_diag. reflexivity. }
  assert (- 2^64 < a - b < 2^64) by (destruct t; cbn in It; try discriminate; cbn [range_of] in Ra, Rb; lia).
  apply Z.mod_divide in H; [|discriminate]. destruct H as [q Hq]. assert (q = 0) by lia. lia.
Qed.

(* a list element read through a column of type t *)
Lemma elem_cast t v : wf v -> t <> PNull -> elem_fits t v ->
  exists v', cast_to t v = Some v' /\ denote v' = denote v /\ wf v' /\ (is_null v' = true \/ vt v' = t).
Proof.
  intros W NT [N|[E|(It&Nv&R)]].
  - exists v. rewrite cast_null by exact N. auto.
  - exists v. rewrite cast_same by exact E. auto.
  - destruct (cast_int t v It Nv R W) as (v'&C&T&Z1&K). exists v'. split; [exact C|].
    pose proof (wf_numeric_k _ W Nv) as K0. destruct (numeric_not _ Nv) as (?&?&?).
    split; [|split].
    + unfold denote. rewrite T, Z1, K, K0. destruct t; cbn in It; try discriminate; destruct (vt v); congruence.
    + unfold cast_to in C. destruct (is_null v || ptype_eqb (vt v) t) eqn:B.
      { injection C as <-. exact W. }
      destruct t; cbn in It; try discriminate; rewrite get_int_numeric in C by exact Nv; rewrite wrap_in in C by exact R;
        cbn [option_map] in C; injection C as <-;
        unfold wf, in_range in *; cbn [vt vz vk vs vnum range_of] in *; (split; [lia|auto]).
    + auto.
Qed.

(* the type IN compares a column with: integers as INT64, others as themselves *)
Lemma in_map_self t : t <> PNull -> t <> PBool -> in_map_type t t = if is_int t then PI64 else t.
Proof. intros N B. destruct t; cbn; try reflexivity; congruence. Qed.

Lemma in_map_bool : in_map_type PBool PBool = PString.
Proof. reflexivity. Qed.

Lemma cast_pi64 v v' : wf v -> is_int (vt v) = true -> cast_to PI64 v = Some v' ->
  vt v' = PI64 /\ vz v' = wrap PI64 (vz v).
Proof.
  intros W It C. destruct (ptype_eq_dec (vt v) PI64) as [E|E].
  - rewrite cast_same in C by exact E. injection C as <-. split; [exact E|].
    symmetry. apply wrap_in. rewrite <- E. apply wf_range; auto. rewrite E. discriminate.
  - unfold cast_to in C. assert (is_null v = false) as E0 by (unfold is_null; destruct (vt v); cbn in It; congruence).
    rewrite E0, (ptype_eqb_neq _ _ E) in C. cbn [orb] in C.
    rewrite get_int_numeric in C by (left; exact It). cbn [option_map] in C.
    assert (v' = vnum PI64 (wrap PI64 (vz v))) as -> by congruence. auto.
Qed.

Lemma eq_of_compare_dbl c : match c with Eq => true | _ => false end = match Some c with Some Eq => true | _ => false end.
Proof. destruct c; reflexivity. Qed.

(* keys of two column values are equal exactly when the values are *)
Lemma key_eq t x y x' y' :
  t <> PNull -> t <> PBool -> wf x -> wf y -> vt x = t -> vt y = t ->
  cast_to (in_map_type t t) x = Some x' -> cast_to (in_map_type t t) y = Some y' ->
  same_key x' y' = Some (match order (denote x) (denote y) with Some Eq => true | _ => false end).
Proof.
  intros N B Wx Wy Tx Ty Cx Cy. rewrite in_map_self in Cx, Cy by assumption.
  destruct (is_int t) eqn:It.
  - (* integers *)
    assert (Rx : in_range t (vz x) = true) by (apply wf_range; auto; destruct t; cbn in *; congruence).
    assert (Ry : in_range t (vz y) = true) by (apply wf_range; auto; destruct t; cbn in *; congruence).
    destruct (cast_pi64 x x' Wx) as [X1 X2]; [rewrite Tx; exact It|exact Cx|].
    destruct (cast_pi64 y y' Wy) as [Y1 Y2]; [rewrite Ty; exact It|exact Cy|].
    unfold same_key. rewrite X1.
    rewrite !get_int_numeric by (left; rewrite ?X1, ?Y1; reflexivity).
    rewrite X2, Y2. f_equal.
    assert (D : forall z, in_range PI64 (wrap PI64 z) = true).
    { intros z. unfold in_range, wrap. cbn [range_of].
      pose proof (Z.mod_pos_bound (z - - 2^63) (2^63 - - 2^63)). lia. }
    rewrite !(wrap_in PI64 (wrap PI64 _)) by apply D.
    rewrite (denote_inj_range t) by assumption.
    rewrite order_num; try congruence.
    + destruct (Z.eqb_spec (vz x) (vz y)), (Z.compare_spec (vz x) (vz y)); auto; lia.
    + apply wf_k; [exact Wx|]. rewrite Tx. destruct t; cbn in It; congruence.
    + apply wf_k; [exact Wy|]. rewrite Ty. destruct t; cbn in It; congruence.
    + rewrite Tx. destruct t; cbn in It; congruence.
  - rewrite cast_same in Cx by exact Tx. rewrite cast_same in Cy by exact Ty.
    injection Cx as <-. injection Cy as <-. unfold same_key. rewrite Tx.
    destruct (ptype_eq_dec t PString) as [ST|ST].
    { unfold denote. rewrite Tx, Ty, ST. reflexivity. }
    destruct (ptype_eq_dec t PDouble) as [DT|DT].
    { unfold denote. rewrite Tx, Ty, DT. reflexivity. }
    assert (Rx : in_range t (vz x) = true) by (apply wf_range; auto; destruct t; cbn in *; congruence).
    assert (Ry : in_range t (vz y) = true) by (apply wf_range; auto; destruct t; cbn in *; congruence).
    rewrite order_num; try congruence;
      [|apply wf_k; [exact Wx|congruence] | apply wf_k; [exact Wy|congruence]].
    assert (G : forall v, vt v = t -> get_int PI64 v = Some (wrap PI64 (vz v))).
    { intros v T. unfold get_int. rewrite T. destruct t; cbn in It; congruence. }
    assert (E : (wrap PI64 (vz x) =? wrap PI64 (vz y)) = (vz x =? vz y)).
    { destruct t; cbn in It; try discriminate; try congruence;
        [apply (denote_inj_range PI32)|apply (denote_inj_range PU32)|apply (denote_inj_range PU32)|apply (denote_inj_range PU64)];
        try reflexivity; assumption. }
    destruct t; cbn in It; try discriminate; try congruence;
      rewrite !G by assumption; rewrite E; f_equal;
      destruct (Z.eqb_spec (vz x) (vz y)), (Z.compare_spec (vz x) (vz y)); auto; lia.
Qed.

(* equality of the tested value with one list element *)
Definition eqv (x y : value) : tv := cmp3 CEq (denote x) (denote y).

Lemma eqv_key x y c : order (denote x) (denote y) = Some c ->
  eqv x y = Some (match order (denote x) (denote y) with Some Eq => true | _ => false end).
Proof. intros H. unfold eqv, cmp3. rewrite H. cbn. destruct c; reflexivity. Qed.

Lemma cast_map t v : t <> PNull -> t <> PBool -> wf v -> vt v = t ->
  exists v', cast_to (in_map_type t t) v = Some v'.
Proof.
  intros N B W T. rewrite in_map_self by assumption. destruct (is_int t) eqn:It.
  - destruct (ptype_eq_dec (vt v) PI64) as [E|E]; [rewrite cast_same by exact E; eauto|].
    unfold cast_to. assert (is_null v = false) as -> by (unfold is_null; destruct (vt v); congruence).
    rewrite (ptype_eqb_neq _ _ E). cbn [orb]. rewrite get_int_numeric by (left; rewrite T; exact It). cbn. eauto.
  - rewrite cast_same by exact T. eauto.
Qed.

Lemma denote_kind t x y : t <> PNull -> vt x = t -> vt y = t -> exists c, order (denote x) (denote y) = Some c.
Proof. intros N Tx Ty. unfold denote. rewrite Tx, Ty. destruct t; try congruence; cbn; eauto. Qed.

(* set construction and lookup over the whole list *)
Lemma in_set_lookup t i x x' l :
  t <> PNull -> t <> PBool -> wf x -> vt x = t -> cast_to (in_map_type t t) x = Some x' ->
  Forall (fun v => wf v /\ elem_fits t v) l ->
  exists s, in_set (ESlot i t) (in_map_type t t) l = Some s /\
    exists b, in_lookup x' s = Some b /\
      fold_right or3 (Some false) (map (eqv x) l) =
        if b then Some true else if existsb is_null l then None else Some false.
Proof.
  intros N B Wx Tx Cx. induction 1 as [|v l [Wv Fv] Hl IH].
  - exists []. split; [reflexivity|]. exists false. auto.
  - destruct IH as (s&S1&b&L1&R1).
    destruct (elem_cast t v Wv N Fv) as (v'&Cv&Dv&Wv'&Hv').
    cbn [in_set in_elem map fold_right existsb]. rewrite Cv, S1.
    destruct Hv' as [Nv|Tv].
    + rewrite Nv. exists s. split; [reflexivity|]. exists b. split; [exact L1|].
      assert (is_null v = true) as Nv0.
      { apply denote_null_iff. rewrite <- Dv. apply denote_null. exact Nv. }
      rewrite Nv0. cbn [orb].
      assert (eqv x v = None) as ->.
      { unfold eqv, cmp3. rewrite order_denote_null by auto. reflexivity. }
      rewrite R1. destruct b; [reflexivity|]. destruct (existsb is_null l); reflexivity.
    + assert (Nv : is_null v' = false) by (unfold is_null; rewrite Tv; destruct t; congruence).
      rewrite Nv. destruct (cast_map t v' N B Wv' Tv) as (w&Cw). rewrite Cw. cbn [option_map].
      exists (w :: s). split; [reflexivity|]. cbn [in_lookup].
      rewrite (key_eq t x v' x' w N B Wx Wv' Tx Tv Cx Cw), L1.
      eexists. split; [reflexivity|].
      assert (is_null v = false) as Nv0.
      { destruct (is_null v) eqn:E; auto. apply denote_null_iff in E. rewrite <- Dv in E.
        apply denote_null_iff in E. congruence. }
      rewrite Nv0. cbn [orb].
      destruct (denote_kind t x v' N Tx Tv) as (c&Oc).
      assert (eqv x v = eqv x v') as -> by (unfold eqv; rewrite Dv; reflexivity).
      rewrite (eqv_key x v' c Oc), R1.
      destruct (match order (denote x) (denote v') with Some Eq => true | _ => false end);
        destruct b; try reflexivity; destruct (existsb is_null l); reflexivity.
Qed.

(* ---- evaluation ---- *)

Lemma get_bool_truth v : vt v <> PString -> is_null v = false -> truth (denote v) = Some (get_bool v).
Proof. unfold denote, truth, get_bool, is_null. intros S N. destruct (vt v); try congruence. Qed.

Lemma denote_vbool b : denote (vbool b) = of_tv (Some b).
Proof. reflexivity. Qed.

Lemma truth_of_tv a : truth (of_tv a) = a.
Proof. destruct a as [[]|]; reflexivity. Qed.

Lemma cast_holds t v : holds t v -> cast_to t v = Some v.
Proof.
  intros (W&N&[H|H]); [apply cast_null, is_null_vt; exact H|apply cast_same; exact H].
Qed.

(* a computed value, as the theorem below describes it *)
Definition good (r : row) (e : expr) (v : value) : Prop :=
  denote v = sql r e /\ wf v /\ (vt v = PString -> ty e = PString).

Lemma wf_vbool b : wf (vbool b).
Proof. destruct b; unfold wf, vbool; cbn; (split; [lia|auto]). Qed.
Lemma wf_vnull : wf vnull.
Proof. unfold wf; cbn. auto. Qed.

Lemma denote_of_tv v a : denote v = of_tv a -> vt v <> PString.
Proof. unfold denote, of_tv. destruct (vt v); destruct a; congruence. Qed.

Lemma common_diff t u : common t u <> PNull -> diff_type t u = common t u.
Proof. destruct t, u; cbn; congruence. Qed.
Lemma cmp_class_type a b : cmp_class a b <> PNull -> cmp_arg_type a b = cmp_class a b.
Proof. destruct a, b; cbn [cmp_class cmp_arg_type]; apply common_diff. Qed.

Lemma eval_leaf r e : ok r e -> simple e -> eval r e = Some (leaf r e).
Proof. destruct e; cbn; try contradiction; intros H _; [apply cast_holds; exact H|reflexivity]. Qed.

Lemma eval_ok r e : ok r e -> exists v, eval r e = Some v /\ good r e v.
Proof.
  induction e as [i t|v|l IH|l IH|a b IHa IHb|a IHa|a IHa|a IHa|o a b IHa IHb|x l IHx IHl] using expr_ind2;
    cbn [ok]; intros OK.
  - exists (r i). cbn [eval]. rewrite cast_holds by exact OK. split; [reflexivity|].
    split; [reflexivity|]. destruct OK as (W&N&H). split; [exact W|]. cbn [ty]. intros E. destruct H; congruence.
  - exists v. split; [reflexivity|]. split; [reflexivity|]. split; [exact OK|]. cbn. auto.
  - (* AND *)
    assert (G : forall l hn,
      Forall (fun e => ok r e -> exists v, eval r e = Some v /\ good r e v) l ->
      Forall id (map (fun c => ok r c /\ condition c) l) ->
      exists v,
      (fix go (l : list expr) (has_null_val : bool) : option value :=
         match l with
         | [] => Some (if has_null_val then vnull else vbool true)
         | c :: l' =>
             match eval r c with
             | None => None
             | Some v =>
                 if negb (is_null v) && negb (get_bool v) then Some (vbool false)
                 else go l' (has_null_val || is_null v)
             end
         end) l hn = Some v /\ wf v /\
      denote v = of_tv (and3 (if hn then None else Some true)
                   (fold_right and3 (Some true) (map (fun c => truth (sql r c)) l)))).
    { clear. induction l as [|c l IHl]; intros hn HI HO.
      - eexists. split; [reflexivity|]. destruct hn; split; (apply wf_vbool || apply wf_vnull || reflexivity).
      - inversion HI as [|? ? Hc HI']; subst. cbn [map] in HO. inversion HO as [|? ? HOC HO']; subst. unfold id in HOC. destruct HOC as [Oc Cc].
        destruct (Hc Oc) as (v&Ev&Dv&Wv&Sv). rewrite Ev. cbn [map fold_right].
        assert (NS : vt v <> PString) by (intros E; apply Cc; auto).
        rewrite <- Dv. destruct (is_null v) eqn:Nv.
        + cbn [negb andb]. rewrite orb_true_r. destruct (IHl true HI' HO') as (w&Ew&Ww&Dw).
          exists w. split; [exact Ew|]. split; [exact Ww|]. rewrite Dw. rewrite (denote_null _ Nv). cbn [truth].
          destruct hn; destruct (fold_right and3 (Some true) (map (fun c0 => truth (sql r c0)) l)) as [[]|]; reflexivity.
        + rewrite (get_bool_truth _ NS Nv). destruct (get_bool v); cbn [negb andb].
          * rewrite orb_false_r. destruct (IHl hn HI' HO') as (w&Ew&Ww&Dw). exists w. split; [exact Ew|]. split; [exact Ww|].
            rewrite Dw. destruct (fold_right and3 (Some true) (map (fun c0 => truth (sql r c0)) l)) as [[]|]; reflexivity.
          * eexists. split; [reflexivity|]. split; [apply wf_vbool|]. destruct hn; reflexivity. }
    destruct (G l false IH OK) as (v&Ev&Wv&Dv). exists v. split; [exact Ev|].
    assert (D : denote v = sql r (EAnd l)).
    { rewrite Dv. cbn [sql]. destruct (fold_right and3 (Some true) (map (fun c => truth (sql r c)) l)) as [[]|]; reflexivity. }
    split; [exact D|]. split; [exact Wv|]. intros E. exfalso. cbn [sql] in D. apply denote_of_tv in D. congruence.
  - (* OR *)
    assert (G : forall l hn,
      Forall (fun e => ok r e -> exists v, eval r e = Some v /\ good r e v) l ->
      Forall id (map (fun c => ok r c /\ condition c) l) ->
      exists v,
      (fix go (l : list expr) (has_null_val : bool) : option value :=
         match l with
         | [] => Some (if has_null_val then vnull else vbool false)
         | c :: l' =>
             match eval r c with
             | None => None
             | Some v =>
                 if negb (is_null v) && get_bool v then Some (vbool true)
                 else go l' (has_null_val || is_null v)
             end
         end) l hn = Some v /\ wf v /\
      denote v = of_tv (or3 (if hn then None else Some false)
                   (fold_right or3 (Some false) (map (fun c => truth (sql r c)) l)))).
    { clear. induction l as [|c l IHl]; intros hn HI HO.
      - eexists. split; [reflexivity|]. destruct hn; split; (apply wf_vbool || apply wf_vnull || reflexivity).
      - inversion HI as [|? ? Hc HI']; subst. cbn [map] in HO. inversion HO as [|? ? HOC HO']; subst. unfold id in HOC. destruct HOC as [Oc Cc].
        destruct (Hc Oc) as (v&Ev&Dv&Wv&Sv). rewrite Ev. cbn [map fold_right].
        assert (NS : vt v <> PString) by (intros E; apply Cc; auto).
        rewrite <- Dv. destruct (is_null v) eqn:Nv.
        + cbn [negb andb]. rewrite orb_true_r. destruct (IHl true HI' HO') as (w&Ew&Ww&Dw).
          exists w. split; [exact Ew|]. split; [exact Ww|]. rewrite Dw. rewrite (denote_null _ Nv). cbn [truth].
          destruct hn; destruct (fold_right or3 (Some false) (map (fun c0 => truth (sql r c0)) l)) as [[]|]; reflexivity.
        + rewrite (get_bool_truth _ NS Nv). destruct (get_bool v); cbn [negb andb].
          * eexists. split; [reflexivity|]. split; [apply wf_vbool|]. destruct hn; reflexivity.
          * rewrite orb_false_r. destruct (IHl hn HI' HO') as (w&Ew&Ww&Dw). exists w. split; [exact Ew|]. split; [exact Ww|].
            rewrite Dw. destruct (fold_right or3 (Some false) (map (fun c0 => truth (sql r c0)) l)) as [[]|]; reflexivity. }
    destruct (G l false IH OK) as (v&Ev&Wv&Dv). exists v. split; [exact Ev|].
    assert (D : denote v = sql r (EOr l)).
    { rewrite Dv. cbn [sql]. destruct (fold_right or3 (Some false) (map (fun c => truth (sql r c)) l)) as [[]|]; reflexivity. }
    split; [exact D|]. split; [exact Wv|]. intros E. exfalso. cbn [sql] in D. apply denote_of_tv in D. congruence.
  - (* XOR *)
    destruct OK as [[Oa Ca] [Ob Cb]]. destruct (IHa Oa) as (x&Ex&Dx&Wx&Sx). destruct (IHb Ob) as (y&Ey&Dy&Wy&Sy).
    assert (NSx : vt x <> PString) by (intros E; apply Ca; auto).
    assert (NSy : vt y <> PString) by (intros E; apply Cb; auto).
    cbn [eval sql]. rewrite Ex, Ey. eexists. split; [reflexivity|]. unfold good. cbn [sql ty].
    rewrite <- Dx, <- Dy. destruct (is_null x) eqn:Nx.
    { rewrite (denote_null _ Nx). cbn. split; [reflexivity|]. split; [apply wf_vnull|discriminate]. }
    destruct (is_null y) eqn:Ny.
    { rewrite (denote_null _ Ny). cbn [orb]. split; [|split; [apply wf_vnull|discriminate]].
      destruct (truth (denote x)); reflexivity. }
    cbn [orb]. rewrite (get_bool_truth _ NSx Nx), (get_bool_truth _ NSy Ny).
    split; [|split; [apply wf_vbool|discriminate]]. destruct (get_bool x), (get_bool y); reflexivity.
  - (* NOT *)
    destruct OK as [Oa Ca]. destruct (IHa Oa) as (x&Ex&Dx&Wx&Sx).
    assert (NSx : vt x <> PString) by (intros E; apply Ca; auto).
    cbn [eval]. rewrite Ex. eexists. split; [reflexivity|]. unfold good. cbn [sql ty]. rewrite <- Dx.
    destruct (is_null x) eqn:Nx.
    { rewrite (denote_null _ Nx). split; [reflexivity|]. split; [exact Wx|]. intros E. congruence. }
    rewrite (get_bool_truth _ NSx Nx). split; [|split; [apply wf_vbool|discriminate]].
    destruct (get_bool x); reflexivity.
  - (* IS NULL *)
    destruct (IHa OK) as (x&Ex&Dx&Wx&Sx). cbn [eval]. rewrite Ex. eexists. split; [reflexivity|].
    unfold good. cbn [sql ty]. rewrite <- Dx. split; [|split; [apply wf_vbool|destruct (is_null x); discriminate]].
    rewrite denote_vbool. do 2 f_equal. unfold denote, is_null. destruct (vt x); reflexivity.
  - (* IS TRUE *)
    destruct OK as [Oa Ca]. destruct (IHa Oa) as (x&Ex&Dx&Wx&Sx).
    assert (NSx : vt x <> PString) by (intros E; apply Ca; auto).
    cbn [eval]. rewrite Ex. eexists. split; [reflexivity|]. unfold good. cbn [sql ty]. rewrite <- Dx.
    split; [|split; [apply wf_vbool|destruct (get_bool x); discriminate]].
    rewrite denote_vbool. do 2 f_equal. destruct (is_null x) eqn:Nx.
    + rewrite (denote_null _ Nx). cbn. apply is_null_vt in Nx. unfold get_bool. rewrite Nx. reflexivity.
    + rewrite (get_bool_truth _ NSx Nx). destruct (get_bool x); reflexivity.
  - (* comparison *)
    destruct OK as (Oa&Ob&Sa&Sb&NC&Fx&Fy). rewrite <- (cmp_class_type a b NC) in Fx, Fy. destruct (IHa Oa) as (x&Ex&Dx&Wx&Sx). destruct (IHb Ob) as (y&Ey&Dy&Wy&Sy).
    rewrite (eval_leaf r a Oa Sa) in Ex. assert (leaf r a = x) as Lx by congruence. rewrite Lx in Fx.
    rewrite (eval_leaf r b Ob Sb) in Ey. assert (leaf r b = y) as Ly by congruence. rewrite Ly in Fy.
    cbn [eval]. rewrite (eval_leaf r a Oa Sa), (eval_leaf r b Ob Sb), Lx, Ly.
    destruct (cmp_value_ok (cmp_arg_type a b) o x y Wx Wy Fx Fy) as (v&Ev&Dv).
    exists v. split; [exact Ev|]. unfold good. cbn [sql ty]. rewrite <- Dx, <- Dy.
    split; [exact Dv|]. split.
    + unfold cmp_value in Ev. destruct (cast_to (cmp_arg_type a b) x); [|discriminate]. destruct (cast_to (cmp_arg_type a b) y); [|discriminate]. injection Ev as <-.
      unfold predicate_fn. destruct (_ || _); [apply wf_vnull|apply wf_vbool].
    + intros E. apply denote_of_tv in Dv. congruence.
  - (* IN *)
    destruct OK as (Ox&NE&t&i&->&NB&FL). destruct (IHx Ox) as (xv&Ex&Dx&Wx&Sx).
    assert (exists vl, l = map ELit vl /\ Forall (fun v => wf v /\ elem_fits t v) vl) as (vl&->&FV).
    { clear - FL. induction FL as [|c l (v&->&W&F) _ (vl&->&FV)]; [exists []|exists (v :: vl)]; cbn; auto. }
    assert (L : lits (map ELit vl) = Some vl) by (clear; induction vl as [|v vl IH]; cbn; [reflexivity|rewrite IH; reflexivity]).
    cbn [eval] in Ex |- *. rewrite L, Ex. destruct vl as [|v0 vl]; [cbn in NE; congruence|].
    assert (N : t <> PNull) by (destruct Ox as (_&N&_); exact N).
    cbn [in_type has_null orb].
    assert (HNs : existsb has_null (map ELit (v0 :: vl)) = existsb is_null (v0 :: vl)).
    { generalize (v0 :: vl). clear. induction l as [|v l IH]; cbn; [reflexivity|]. rewrite IH. reflexivity. }
    rewrite HNs.
    assert (SQ : sql r (EIn (ESlot i t) (map ELit (v0 :: vl))) = of_tv (fold_right or3 (Some false) (map (eqv xv) (v0 :: vl)))).
    { cbn [sql] in Dx |- *. rewrite <- Dx. f_equal. f_equal. generalize (v0 :: vl). clear.
      induction l as [|v l IH]; [reflexivity|]. cbn [map]. rewrite IH. reflexivity. }
    unfold good. rewrite SQ. clear SQ HNs.
    assert (NEl : v0 :: vl <> []) by discriminate. change (existsb is_null (v0 :: vl)) with (existsb is_null (v0 :: vl)).
    set (l := v0 :: vl) in *. clearbody l. clear v0 vl NE L.
    unfold in_value. destruct (is_null xv) eqn:Nx.
    + (* NULL IN ... *)
      assert (exists s, in_set (ESlot i t) (in_map_type t t) l = Some s) as (s&Es).
      { clear - FV N NB. induction FV as [|v l [W F] _ (s&Es)]; [eexists; reflexivity|].
        cbn [in_set in_elem]. destruct (elem_cast t v W N F) as (v'&Cv&Dv&Wv'&Hv'). rewrite Cv, Es.
        destruct Hv' as [Nv|Tv]; [rewrite Nv; eauto|]. destruct (is_null v'); [eauto|].
        destruct (cast_map t v' N NB Wv' Tv) as (w&Cw). rewrite Cw. cbn. eauto. }
      rewrite Es. exists vnull. split; [reflexivity|]. split; [|split; [apply wf_vnull|discriminate]].
      assert (fold_right or3 (Some false) (map (eqv xv) l) = None) as ->; [|reflexivity].
      { clear - Nx NEl. assert (G : fold_right or3 (Some false) (map (eqv xv) l) = None \/ l = []).
        { clear NEl. induction l as [|v l IH]; [auto|]. left. cbn [map fold_right].
          assert (eqv xv v = None) as -> by (unfold eqv, cmp3; rewrite order_denote_null by auto; reflexivity).
          destruct IH as [->| ->]; reflexivity. }
        destruct G; [assumption|contradiction]. }
    + assert (T : vt xv = t).
      { rewrite cast_holds in Ex by exact Ox. injection Ex as <-. destruct Ox as (_&_&[H|H]); [|exact H].
        apply is_null_vt in H. congruence. }
      destruct (cast_map t xv N NB Wx T) as (x'&Cx).
      destruct (in_set_lookup t i xv x' l N NB Wx T Cx FV) as (s&Es&b&Lb&Rb).
      rewrite Es, Cx, Lb, Rb. destruct b.
      * eexists. split; [reflexivity|]. split; [reflexivity|]. split; [apply wf_vbool|discriminate].
      * eexists. split; [reflexivity|]. destruct (existsb is_null l).
        -- split; [reflexivity|]. split; [apply wf_vnull|discriminate].
        -- split; [reflexivity|]. split; [apply wf_vbool|discriminate].
Qed.

(* the WHERE filter *)
Lemma need_copy_ok r cs :
  Forall (fun c => ok r c /\ condition c) cs ->
  exists b, need_copy cs r = Some b /\
    (b = true <-> Forall (fun c => truth (sql r c) = Some true) cs).
Proof.
  induction 1 as [|c cs [Oc Cc] _ (b&Eb&Hb)].
  - exists true. split; [reflexivity|]. split; auto.
  - cbn [need_copy]. destruct (eval_ok r c Oc) as (v&Ev&Dv&Wv&Sv). rewrite Ev.
    assert (NS : vt v <> PString) by (intros E; apply Cc; auto).
    destruct (is_null v) eqn:Nv; cbn [orb].
    { exists false. split; [reflexivity|]. split; [discriminate|]. inversion 1; subst.
      rewrite <- Dv, (denote_null _ Nv) in *. discriminate. }
    pose proof (get_bool_truth _ NS Nv) as T. rewrite Dv in T. destruct (get_bool v); cbn [negb].
    + exists b. split; [exact Eb|]. rewrite Hb. split; [intros F; constructor; auto|inversion 1; auto].
    + exists false. split; [reflexivity|]. split; [discriminate|]. inversion 1; subst. congruence.
Qed.
