(* Row ordering for ORDER BY and merge (src/mem_row/mem_row_compare.cpp:18-38). *)
From Verif Require Import Common.Bytes Expr.Value Expr.Model Expr.Spec Expr.Proofs.
Local Open Scope Z_scope.

(* MemRowCompare::compare.  A row is given by the values of the ordering expressions;
   [specs] holds _is_asc and _is_null_first per expression. *)
Fixpoint row_compare (specs : list (bool * bool)) (l r : list value) : Z :=
  match specs, l, r with
  | (asc, nf) :: specs', x :: l', y :: r' =>
      if is_null x && is_null y then row_compare specs' l' r'
      else if is_null x then (if nf then -1 else 1)
      else if is_null y then (if nf then 1 else -1)
      else
        let comp := compare x y in
        if comp =? 0 then row_compare specs' l' r'
        else if asc then comp else - comp
  | _, _, _ => 0
  end.

(* MemRowCompare::less (include/mem_row/mem_row_compare.h:36-38) *)
Definition row_less (specs : list (bool * bool)) (l r : list value) : bool :=
  row_compare specs l r <? 0.

(* ---- specification ---- *)

(* how one column orders two SQL values: NULLs first or last as requested, other values
   by their SQL order, reversed for DESC *)
Definition col_order (asc nf : bool) (x y : sqlval) : comparison :=
  match x, y with
  | SNull, SNull => Eq
  | SNull, _ => if nf then Lt else Gt
  | _, SNull => if nf then Gt else Lt
  | _, _ =>
      match order x y with
      | Some c => if asc then c else CompOpp c
      | None => Eq
      end
  end.

(* rows are ordered by the first column on which they differ *)
Fixpoint lex (specs : list (bool * bool)) (l r : list sqlval) : comparison :=
  match specs, l, r with
  | (asc, nf) :: specs', x :: l', y :: r' =>
      match col_order asc nf x y with
      | Eq => lex specs' l' r'
      | c => c
      end
  | _, _, _ => Eq
  end.

(* a row whose i-th value is NULL or of the i-th type *)
Definition typed (ts : list ptype) (l : list value) : Prop :=
  Forall2 (fun t v => holds t v) ts l.

Lemma holds_null t v : holds t v -> is_null v = false -> vt v = t.
Proof. intros (_&_&[H|H]) N; [|exact H]. apply is_null_vt in H. congruence. Qed.

Lemma row_compare_lex ts specs : forall l r, typed ts l -> typed ts r ->
  (row_compare specs l r ?= 0) = lex specs (map denote l) (map denote r).
Proof.
  revert ts. induction specs as [|[asc nf] specs IH]; intros ts l r Hl Hr; [reflexivity|].
  destruct Hl as [|t x ts l Hx Hl]; [reflexivity|].
  inversion Hr as [|? y ? r' Hy Hr' ]; subst. cbn [row_compare map lex].
  pose proof (IH ts l r' Hl Hr') as IH'.
  destruct (is_null x) eqn:Nx.
  { rewrite (denote_null _ Nx). cbn [andb]. destruct (is_null y) eqn:Ny.
    - rewrite (denote_null _ Ny). cbn [col_order]. exact IH'.
    - assert (denote y <> SNull) by (intros E; apply denote_null_iff in E; congruence).
      destruct (denote y); try congruence; cbn; destruct nf; reflexivity. }
  cbn [andb]. assert (DX : denote x <> SNull) by (intros E; apply denote_null_iff in E; congruence).
  destruct (is_null y) eqn:Ny.
  { rewrite (denote_null _ Ny). destruct (denote x); try congruence; cbn; destruct nf; reflexivity. }
  assert (DY : denote y <> SNull) by (intros E; apply denote_null_iff in E; congruence).
  pose proof (compare_order x y) as CO.
  rewrite (holds_null _ _ Hx Nx), (holds_null _ _ Hy Ny) in CO.
  specialize (CO (proj1 Hx) (proj1 Hy) eq_refl (proj1 (proj2 Hx))).
  assert (CC : col_order asc nf (denote x) (denote y) = if asc then (compare x y ?= 0) else CompOpp (compare x y ?= 0)).
  { unfold col_order. rewrite CO. destruct (denote x); try congruence; destruct (denote y); try congruence; reflexivity. }
  rewrite CC. destruct (Z.eqb_spec (compare x y) 0) as [E|E].
  - rewrite E. cbn. destruct asc; exact IH'.
  - assert (CN : (compare x y ?= 0) <> Eq) by (intros H; apply Z.compare_eq_iff in H; contradiction).
    destruct asc.
    + destruct (compare x y ?= 0); congruence.
    + replace (- compare x y ?= 0) with (CompOpp (compare x y ?= 0))
        by (destruct (Z.compare_spec (compare x y) 0), (Z.compare_spec (- compare x y) 0); cbn; congruence || lia).
      destruct (compare x y ?= 0); cbn; congruence.
Qed.

(* ---- the specification is a total preorder on typed rows ---- *)

(* two SQL values of one column: NULL or of one kind *)
Inductive kind := KNum | KStr.
Definition of_kind (k : kind) (x : sqlval) : Prop :=
  match x with SNull => True | SNum _ _ => k = KNum | SStr _ => k = KStr end.

Lemma order_refl x : x <> SNull -> order x x = Some Eq.
Proof. destruct x; cbn; try congruence; intros _; [rewrite Z.compare_refl|rewrite bcompare_refl]; reflexivity. Qed.

Lemma order_antisym x y : order y x = option_map CompOpp (order x y).
Proof.
  destruct x, y; cbn; try reflexivity.
  - rewrite (Z.compare_antisym (m * _)). reflexivity.
  - rewrite (bcompare_antisym s). reflexivity.
Qed.

Definition le3 (c : option comparison) : Prop := c = Some Lt \/ c = Some Eq.

Lemma bcompare_le_trans a b c : bcompare a b <> Gt -> bcompare b c <> Gt -> bcompare a c <> Gt.
Proof.
  intros H1 H2. destruct (bcompare a b) eqn:E1; try congruence; destruct (bcompare b c) eqn:E2; try congruence.
  - apply bcompare_eq in E1, E2. subst. rewrite bcompare_refl. discriminate.
  - apply bcompare_eq in E1. subst. congruence.
  - apply bcompare_eq in E2. subst. congruence.
  - rewrite (bcompare_lt_trans _ _ _ E1 E2). discriminate.
Qed.

Lemma order_trans x y z : le3 (order x y) -> le3 (order y z) -> le3 (order x z).
Proof.
  destruct x as [|m k|s], y as [|m' k'|s'], z as [|m'' k''|s'']; unfold le3; cbn;
    try (intros [?|?]; discriminate); try (intros _ [?|?]; discriminate).
  - set (a := 2 ^ Z.of_nat k) in *. set (b := 2 ^ Z.of_nat k') in *. set (c := 2 ^ Z.of_nat k'') in *.
    assert (0 < a) by (apply Z.pow_pos_nonneg; lia).
    assert (0 < b) by (apply Z.pow_pos_nonneg; lia).
    assert (0 < c) by (apply Z.pow_pos_nonneg; lia).
    intros X1 X2.
    assert (L1 : m * b <= m' * a) by (destruct (Z.compare_spec (m * b) (m' * a)); try lia; destruct X1; discriminate).
    assert (L2 : m' * c <= m'' * b) by (destruct (Z.compare_spec (m' * c) (m'' * b)); try lia; destruct X2; discriminate).
    assert (L : m * c <= m'' * a) by nia.
    destruct (Z.compare_spec (m * c) (m'' * a)); auto; lia.
  - intros H1 H2. assert (bcompare s s'' <> Gt).
    { apply (bcompare_le_trans s s' s''); [destruct H1 as [H1|H1]|destruct H2 as [H2|H2]]; congruence. }
    destruct (bcompare s s''); auto; congruence.
Qed.

Lemma col_order_antisym asc nf x y : col_order asc nf y x = CompOpp (col_order asc nf x y).
Proof.
  unfold col_order. rewrite (order_antisym x y).
  destruct x, y; cbn; try (destruct nf; reflexivity); try reflexivity; destruct asc; cbn; try reflexivity;
    match goal with |- context [CompOpp (CompOpp ?c)] => destruct c; reflexivity | _ => idtac end.
Qed.

Lemma lex_antisym specs : forall l r, lex specs r l = CompOpp (lex specs l r).
Proof.
  induction specs as [|[asc nf] specs IH]; intros [|x l] [|y r]; try reflexivity.
  cbn [lex]. rewrite (col_order_antisym asc nf x y). destruct (col_order asc nf x y); cbn; auto.
Qed.

Lemma order_kind k x y : of_kind k x -> of_kind k y -> x <> SNull -> y <> SNull -> exists c, order x y = Some c.
Proof. destruct x, y; cbn; try congruence; intros; subst; try discriminate; eauto. Qed.

Lemma col_order_trans k asc nf x y z :
  of_kind k x -> of_kind k y -> of_kind k z ->
  col_order asc nf x y <> Gt -> col_order asc nf y z <> Gt -> col_order asc nf x z <> Gt.
Proof.
  intros Kx Ky Kz.
  assert (G : forall a b, of_kind k a -> of_kind k b -> a <> SNull -> b <> SNull ->
             (col_order asc nf a b <> Gt <-> if asc then le3 (order a b) else le3 (order b a))).
  { intros a b Ka Kb Na Nb. destruct (order_kind k a b Ka Kb Na Nb) as (c&Oc).
    unfold col_order. rewrite (order_antisym a b), Oc. unfold le3. cbn.
    destruct a; try congruence; destruct b; try congruence; destruct asc, c; cbn; intuition congruence. }
  destruct x as [|m k1|s] eqn:Ex; [|destruct y as [|m' k2|s'] eqn:Ey|destruct y as [|m' k2|s'] eqn:Ey].
  - destruct y; destruct z; cbn; destruct nf; congruence.
  - destruct z; cbn; destruct nf; congruence.
  - destruct z as [|m'' k3|s''] eqn:Ez; [cbn; destruct nf; congruence| |];
      (rewrite !G by (cbn; auto; discriminate); destruct asc; intros; eapply order_trans; eauto).
  - destruct z as [|m'' k3|s''] eqn:Ez; [cbn; destruct nf; congruence| |];
      (rewrite !G by (cbn; auto; discriminate); destruct asc; intros; eapply order_trans; eauto).
  - destruct z; cbn; destruct nf; congruence.
  - destruct z as [|m'' k3|s''] eqn:Ez; [cbn; destruct nf; congruence| |];
      (rewrite !G by (cbn; auto; discriminate); destruct asc; intros; eapply order_trans; eauto).
  - destruct z as [|m'' k3|s''] eqn:Ez; [cbn; destruct nf; congruence| |];
      (rewrite !G by (cbn; auto; discriminate); destruct asc; intros; eapply order_trans; eauto).
Qed.

Lemma lex_trans ks specs : forall a b c,
  Forall2 of_kind ks a -> Forall2 of_kind ks b -> Forall2 of_kind ks c ->
  lex specs a b <> Gt -> lex specs b c <> Gt -> lex specs a c <> Gt.
Proof.
  revert ks. induction specs as [|[asc nf] specs IH]; intros ks a b c Ha Hb Hc; [cbn; congruence|].
  destruct Ha as [|k x ks a Kx Ha]; [cbn; congruence|].
  inversion Hb as [|? y ? b' Ky Hb']; subst. inversion Hc as [|? z ? c' Kz Hc']; subst.
  cbn [lex]. intros H1 H2.
  pose proof (col_order_trans k asc nf x y z Kx Ky Kz) as T.
  pose proof (col_order_trans k asc nf y z x Ky Kz Kx) as T2.
  pose proof (col_order_trans k asc nf z x y Kz Kx Ky) as T3.
  rewrite (col_order_antisym asc nf x z) in T2. rewrite (col_order_antisym asc nf x y) in T2.
  rewrite (col_order_antisym asc nf x z) in T3. rewrite (col_order_antisym asc nf y z) in T3.
  pose proof (IH ks a b' c' Ha Hb' Hc') as IH'.
  destruct (col_order asc nf x y) eqn:E1; try congruence;
    destruct (col_order asc nf y z) eqn:E2; try congruence;
    destruct (col_order asc nf x z) eqn:E3; cbn in *; try congruence;
    try (exfalso; apply T; congruence); try (exfalso; apply T2; congruence); try (exfalso; apply T3; congruence); auto.
Qed.

Definition kind_of (t : ptype) : kind := match t with PString => KStr | _ => KNum end.

Lemma typed_kinds ts l : typed ts l -> Forall2 of_kind (map kind_of ts) (map denote l).
Proof.
  induction 1 as [|t v ts l H _ IH]; cbn; constructor; auto.
  destruct H as (_&_&[E|E]); unfold denote; rewrite E; [exact Logic.I|].
  destruct t; cbn; auto.
Qed.
