(* When the conditions of Cut/Model.v are TRUE. *)
From Verif Require Import Common.Bytes Common.KV Expr.Value Expr.Model Expr.Spec Expr.Proofs Cut.Model Cut.Spec Cut.Values.
Local Open Scope Z_scope.

Lemma TRUE_vbool r p b : peval r p = Some (vbool b) -> (TRUE r p <-> b = true).
Proof.
  intros E. unfold TRUE. rewrite E. split.
  - intros (v&Ev&_&G). injection Ev as <-. destruct b; [reflexivity|discriminate].
  - intros ->. exists (vbool true). repeat split.
Qed.
Lemma TRUE_null r p v : peval r p = Some v -> is_null v = true -> ~ TRUE r p.
Proof. intros E N (w&Ew&Nw&_). congruence. Qed.

Lemma TRUE_tv r p v a : peval r p = Some v -> denote v = of_tv a -> (TRUE r p <-> a = Some true).
Proof.
  intros E D. unfold TRUE. rewrite E. pose proof (denote_of_tv _ _ D) as NS. split.
  - intros (w&Ew&N&G). injection Ew as <-. pose proof (get_bool_truth v NS N) as T.
    rewrite D, truth_of_tv in T. congruence.
  - intros ->. exists v. assert (is_null v = false) as N.
    { apply not_true_is_false. intros N. apply denote_null in N. rewrite N in D. discriminate. }
    pose proof (get_bool_truth v NS N) as T. rewrite D, truth_of_tv in T. injection T as <-. auto.
Qed.

Section Row.
Variable Z : value -> Prop.
Variable C : nat -> ptype.
Variable r : row.
Hypothesis R : row_fz Z C r.

Lemma leaf_value t x : usable t -> leaf_fz Z C t x -> exists v, leaf_val r x = Some v /\ fz Z t v.
Proof.
  intros U. destruct x as [i u|w]; cbn.
  - intros (->&E). subst t. destruct (R i U) as (H&Hz). rewrite cast_holds by exact H. exists (r i).
    split; [reflexivity|]. split; [|exact Hz]. destruct H as (W&N&[H|H]); split; auto. left. apply is_null_vt. exact H.
  - intros F. eauto.
Qed.

Lemma leaf_type t x v : usable t -> leaf_fz Z C t x -> leaf_val r x = Some v -> is_null v = false ->
  leaf_ty x = t \/ leaf_ty x = arg t.
Proof.
  intros U. destruct x as [i u|w]; cbn; [intros (->&_); auto|].
  intros ((_&[N|H])&_) E Nv; [congruence|exact H].
Qed.

(* ---- comparisons ---- *)

Lemma T_cmp t o x v : usable t -> leaf_fz Z C t x -> fz Z t v ->
  (TRUE r (Cmp o (arg t) x v) <-> exists xv, leaf_val r x = Some xv /\ cmp3 o (denote xv) (denote v) = Some true).
Proof.
  intros U L F. destruct (leaf_value t x U L) as (xv&Ex&Fx).
  destruct (fit_cmp t o xv v U (proj1 Fx) (proj1 F)) as (w&Ew&Dw).
  rewrite (TRUE_tv r _ w (cmp3 o (denote xv) (denote v))).
  - split; [eauto|]. intros (y&Ey&H). congruence.
  - cbn [peval]. rewrite Ex. exact Ew.
  - exact Dw.
Qed.

Lemma D_cmp t o x v : usable t -> leaf_fz Z C t x -> fz Z t v -> exists w, peval r (Cmp o (arg t) x v) = Some w.
Proof.
  intros U L F. destruct (leaf_value t x U L) as (xv&Ex&Fx).
  destruct (fit_cmp t o xv v U (proj1 Fx) (proj1 F)) as (w&Ew&Dw). exists w. cbn [peval]. rewrite Ex. exact Ew.
Qed.

(* ---- IN ---- *)

Lemma elem_set_ok t l : usable t -> Forall (elem_fz Z t) l -> exists s, elem_set (mt t) l = Some s /\
  forall x x', fz Z t x -> is_null x = false -> cast_to (mt t) x = Some x' ->
    exists b, in_lookup x' s = Some b /\ (b = true <-> exists e : elem, List.In e l /\ eqv2 x (snd e)).
Proof.
  intros U. induction 1 as [|[u v] l He _ IH].
  - exists []. split; [reflexivity|]. intros x x' _ _ _. exists false. split; [reflexivity|].
    split; [discriminate|]. intros (e&[]&_).
  - destruct IH as (s&Es&Hs). cbn [elem_set]. rewrite Es. destruct He as ((_&Fv)&_). cbn [snd] in Fv.
    destruct (is_null v) eqn:Nv.
    + exists s. split; [reflexivity|]. intros x x' Fx Nx Cx. destruct (Hs x x' Fx Nx Cx) as (b&Eb&Hb).
      exists b. split; [exact Eb|]. rewrite Hb. split.
      * intros (e&He&Q). exists e. split; [right; exact He|exact Q].
      * intros (e&[<-|He]&Q); [apply eqv2_null in Q; cbn in Q; destruct Q; congruence|eauto].
    + destruct (cast_mt t v U Fv Nv) as (v'&Cv&_). rewrite Cv. exists (v' :: s). split; [reflexivity|].
      intros x x' Fx Nx Cx. destruct (Hs x x' Fx Nx Cx) as (b&Eb&Hb).
      pose proof (fit_key t x v x' v' U (proj1 Fx) Fv Nx Nv Cx Cv) as K. cbn [in_lookup]. rewrite K, Eb.
      eexists. split; [reflexivity|]. rewrite orb_true_iff, Hb. split.
      * intros [Q|(e&He&Q)].
        -- exists (u, v). split; [left; reflexivity|]. unfold eqv2. cbn [snd]. destruct (order _ _) as [[]|]; congruence.
        -- exists e. split; [right; exact He|exact Q].
      * intros (e&[<-|He]&Q); [left; unfold eqv2 in Q; cbn [snd] in Q; rewrite Q; reflexivity|right; eauto].
Qed.

Lemma first_type t l u v q : Forall (elem_fz Z t) l -> l = (u, v) :: q -> u = t \/ u = arg t.
Proof. intros F ->. inversion F as [|? ? ((H&_)&_)]; subst. exact H. Qed.

Lemma T_in t x l hn : usable t -> leaf_fz Z C t x -> Forall (elem_fz Z t) l ->
  (TRUE r (In x l hn) <-> exists xv (e : elem), leaf_val r x = Some xv /\ List.In e l /\ eqv2 xv (snd e)).
Proof.
  intros U L F. destruct (leaf_value t x U L) as (xv&Ex&Fx).
  destruct l as [|[u v] q] eqn:El.
  { split; [intros (w&Ew&_); discriminate|]. intros (?&?&_&[]&_). }
  rewrite <- El in *. destruct (is_null xv) eqn:Nx.
  { split.
    - intros (w&Ew&Nw&_). cbn [peval] in Ew. rewrite El in Ew at 1. rewrite Ex in Ew.
      destruct (elem_set _ l); [|discriminate]. unfold in_value in Ew. rewrite Nx in Ew. injection Ew as <-. discriminate.
    - intros (y&e&Ey&_&Q). apply eqv2_null in Q. destruct Q. congruence. }
  destruct (elem_set_ok t l U F) as (s&Es&Hs).
  destruct (cast_mt t xv U (proj1 Fx) Nx) as (x'&Cx&_).
  destruct (Hs xv x' Fx Nx Cx) as (b&Eb&Hb).
  assert (M : in_map_type (leaf_ty x) u = mt t).
  { apply mt_in; [exact U|eapply leaf_type; eauto|eapply first_type; eauto]. }
  assert (E : peval r (In x l hn) = Some (if b then vbool true else if hn then vnull else vbool false)).
  { cbn [peval]. rewrite El at 1. rewrite M, Es, Ex. unfold in_value. rewrite Nx, Cx, Eb. destruct b; reflexivity. }
  transitivity (b = true).
  - destruct b; [apply TRUE_vbool; exact E|]. split; [|discriminate].
    intros T. exfalso. destruct hn; [eapply TRUE_null; eauto; reflexivity|apply TRUE_vbool in E; apply E in T; discriminate].
  - rewrite Hb. split; [intros (e&He&Q); eauto 6|]. intros (y&e&Ey&He&Q). assert (y = xv) as -> by congruence. eauto.
Qed.

Lemma elem_set_def t l m : usable t -> Forall (elem_fz Z t) l -> in_map_type PNull t = m \/ in_map_type PNull (arg t) = m ->
  exists s, elem_set m l = Some s.
Proof.
  intros U F M. induction F as [|[u v] l He _ (s&Es)]; [eexists; reflexivity|].
  cbn [elem_set]. rewrite Es. destruct He as ((_&Fv)&_). cbn [snd] in Fv.
  destruct (is_null v) eqn:Nv; [eauto|].
  assert (exists w, cast_to m v = Some w) as (w&->); [|eauto].
  destruct Fv as (W&[Hn|Fv]); [congruence|]. unfold cast_to. rewrite Nv. cbn [orb].
  destruct U as (Un&Ub). destruct M as [<-|<-], Fv as [-> | ->]; destruct t; cbn; try congruence; eauto.
Qed.

Lemma peval_in x l hn u v q : l = (u, v) :: q ->
  peval r (In x l hn) = (let* s := elem_set (in_map_type (leaf_ty x) u) l in let* xv := leaf_val r x in in_value (in_map_type (leaf_ty x) u) s hn xv).
Proof. intros ->. reflexivity. Qed.

Lemma D_in t x l hn : usable t -> leaf_fz Z C t x -> Forall (elem_fz Z t) l -> l <> [] -> exists w, peval r (In x l hn) = Some w.
Proof.
  intros U L F NE. destruct (leaf_value t x U L) as (xv&Ex&Fx).
  destruct l as [|[u v] q] eqn:El; [congruence|]. rewrite <- El in *. rewrite (peval_in x l hn u v q El).
  pose proof (first_type t l u v q F El) as Hu.
  destruct (is_null xv) eqn:Nx.
  - assert (exists s, elem_set (in_map_type (leaf_ty x) u) l = Some s) as (s&->).
    { destruct x as [i ty|w]; cbn [leaf_ty].
      - destruct L as (->&_). rewrite (mt_in t) by auto. destruct (elem_set_ok t l U F) as (s&Es&_). eauto.
      - cbn in Ex. injection Ex as ->. apply is_null_vt in Nx. rewrite Nx. apply (elem_set_def t); auto.
        destruct Hu as [-> | ->]; auto. }
    rewrite Ex. unfold in_value. rewrite Nx. eauto.
  - destruct (elem_set_ok t l U F) as (s&Es&Hs).
    destruct (cast_mt t xv U (proj1 Fx) Nx) as (x'&Cx&_).
    destruct (Hs xv x' Fx Nx Cx) as (b&Eb&_).
    rewrite (mt_in t) by (auto; eapply leaf_type; eauto).
    rewrite Es, Ex. unfold in_value. rewrite Nx, Cx, Eb. destruct b; eauto.
Qed.

(* ---- row comparisons ---- *)

Lemma leaf_values ts xs : Forall usable ts -> Forall2 (leaf_fz Z C) ts xs ->
  exists l, leaf_vals r xs = Some l /\ Forall2 (fz Z) ts l.
Proof.
  intros U F. induction F as [|t x ts xs L _ IH]; [exists []; auto|].
  inversion U as [|? ? Ut Us]; subst. destruct (IH Us) as (l&El&Fl). destruct (leaf_value t x Ut L) as (v&Ev&Fv).
  exists (v :: l). cbn [leaf_vals]. rewrite Ev, El. auto.
Qed.

Lemma F2_len {A B} (P : A -> B -> Prop) l l' : Forall2 P l l' -> length l = length l'.
Proof. induction 1; cbn; congruence. Qed.

Lemma leaf_vals_len xs : forall l, leaf_vals r xs = Some l -> length l = length xs.
Proof.
  induction xs as [|x xs IH]; intros l E; cbn in E; [injection E as <-; reflexivity|].
  destruct (leaf_val r x); [|discriminate]. destruct (leaf_vals r xs) as [l'|]; [|discriminate].
  injection E as <-. cbn. f_equal. apply IH. reflexivity.
Qed.

Definition fnn (t : ptype) (v : value) : Prop := fz Z t v /\ is_null v = false.

Lemma null_compare t v : usable t -> fnn t v -> forall x, is_null x = true -> wf x -> exists c, compare_diff_type x v = Some c /\ c <> 0.
Proof.
  intros (Un&Ub) (((W&Fv)&_)&Nv) x Nx Wx. apply is_null_vt in Nx. unfold compare_diff_type.
  assert (ptype_eqb (vt x) (vt v) = false) as ->.
  { apply ptype_eqb_neq. intros E. rewrite Nx in E. symmetry in E. apply is_null_vt in E. congruence. }
  assert (exists w, cast_to (diff_type (vt x) (vt v)) v = Some w /\ is_null w = false) as (w&->&Nw).
  { rewrite Nx. unfold cast_to. rewrite Nv. cbn [orb]. destruct Fv as [Hn|Fv]; [congruence|].
    destruct Fv as [E|E]; rewrite E; destruct t; cbn; try congruence; eauto; try (exists v; auto); eexists; split; reflexivity. }
  rewrite cast_null by (apply is_null_vt; exact Nx). eexists. split; [reflexivity|].
  unfold compare. rewrite Nx, Nw. lia.
Qed.

Lemma multi_def o ts : forall l vs, Forall usable ts -> Forall2 (fz Z) ts l -> Forall2 fnn ts vs -> exists b, multi o (combine l vs) = Some b.
Proof.
  intros l vs U F. revert vs. induction F as [|t x ts l Fx _ IH]; intros vs G; inversion G as [|? v ? vs' Fv G']; subst; cbn [combine multi]; [eauto|].
  inversion U as [|? ? Ut Us]; subst.
  assert (exists c, compare_diff_type x v = Some c) as (c&->).
  { destruct (is_null x) eqn:Nx.
    - destruct (null_compare t v Ut Fv x Nx (proj1 (proj1 Fx))) as (c&Ec&_). eauto.
    - destruct (fit_compare t x v Ut (proj1 Fx) (proj1 (proj1 Fv)) Nx (proj2 Fv)) as (c&Ec&_). eauto. }
  destruct (IH Us vs' G') as (b&Eb). rewrite Eb.
  destruct o; destruct (c =? 0); destruct (c <? 0); destruct (0 <? c); eauto.
Qed.

Lemma multi_eq ts : forall l vs, Forall usable ts -> Forall2 (fz Z) ts l -> Forall2 fnn ts vs ->
  (multi CEq (combine l vs) = Some true <-> Forall2 eqv2 l vs).
Proof.
  intros l vs U F. revert vs. induction F as [|t x ts l Fx _ IH]; intros vs G; inversion G as [|? v ? vs' Fv G']; subst; cbn [combine multi].
  { split; [constructor|reflexivity]. }
  inversion U as [|? ? Ut Us]; subst. specialize (IH Us vs' G').
  destruct (is_null x) eqn:Nx.
  - destruct (null_compare t v Ut Fv x Nx (proj1 (proj1 Fx))) as (c&->&Nc).
    destruct (Z.eqb_spec c 0); [contradiction|]. split; [discriminate|].
    intros Q. inversion Q as [|? ? ? ? Q1]; subst. apply eqv2_null in Q1. destruct Q1. congruence.
  - destruct (fit_compare t x v Ut (proj1 Fx) (proj1 (proj1 Fv)) Nx (proj2 Fv)) as (c&->&Oc).
    destruct (Z.eqb_spec c 0) as [->|Nc].
    + rewrite IH. split; [intros Q; constructor; auto|]. intros Q. inversion Q; subst; assumption.
    + split; [discriminate|]. intros Q. inversion Q as [|? ? ? ? Q1]; subst. unfold eqv2 in Q1. rewrite Oc in Q1.
      destruct (Z.compare_spec c 0); congruence.
Qed.

Lemma T_roweq xs vs ts : Forall usable ts -> Forall2 (leaf_fz Z C) ts xs -> Forall2 fnn ts vs ->
  (TRUE r (RowCmp CEq xs vs) <-> exists l, leaf_vals r xs = Some l /\ Forall2 eqv2 l vs).
Proof.
  intros U L G. destruct (leaf_values ts xs U L) as (l&El&Fl).
  assert (same_len xs vs = true) as SL.
  { unfold same_len. apply Nat.eqb_eq. rewrite <- (F2_len _ _ _ L). apply (F2_len _ _ _ G). }
  destruct (multi_def CEq ts l vs U Fl G) as (b&Eb).
  rewrite (TRUE_vbool r _ b) by (cbn [peval]; rewrite SL, El, Eb; reflexivity).
  pose proof (multi_eq ts l vs U Fl G) as M. rewrite Eb in M. split.
  - intros ->. exists l. split; [exact El|]. apply M. reflexivity.
  - intros (l'&El'&Q). assert (l' = l) as -> by congruence. apply M in Q. congruence.
Qed.

Lemma D_rowcmp o xs vs ts : Forall usable ts -> Forall2 (leaf_fz Z C) ts xs -> Forall2 fnn ts vs ->
  exists w, peval r (RowCmp o xs vs) = Some w.
Proof.
  intros U L G. destruct (leaf_values ts xs U L) as (l&El&Fl).
  assert (same_len xs vs = true) as SL.
  { unfold same_len. apply Nat.eqb_eq. rewrite <- (F2_len _ _ _ L). apply (F2_len _ _ _ G). }
  destruct (multi_def o ts l vs U Fl G) as (b&Eb). cbn [peval]. rewrite SL, El, Eb. eauto.
Qed.

(* equal values in the place of others *)
Definition alike (x y : value) : Prop := x = y \/ eqv2 x y.

Lemma multi_alike o ts : forall l l' vs, Forall usable ts -> Forall2 (fz Z) ts l -> Forall2 (fz Z) ts l' ->
  Forall2 fnn ts vs -> Forall2 alike l l' -> multi o (combine l vs) = multi o (combine l' vs).
Proof.
  intros l l' vs U F. revert l' vs. induction F as [|t x ts l Fx _ IH]; intros l' vs F' G A;
    inversion F' as [|? x' ? l2 Fx' F2]; subst; inversion G as [|? v ? vs' Fv G']; subst; cbn [combine multi]; [reflexivity|].
  inversion A as [|? ? ? ? Ax Al]; subst. inversion U as [|? ? Ut Us]; subst.
  specialize (IH Us l2 vs' F2 G' Al). destruct Ax as [->|Q].
  - destruct (compare_diff_type x' v); [|reflexivity]. rewrite IH. reflexivity.
  - destruct (eqv2_null _ _ Q) as (Nx&Nx').
    destruct (fit_compare t x v Ut (proj1 Fx) (proj1 (proj1 Fv)) Nx (proj2 Fv)) as (c&->&Oc).
    destruct (fit_compare t x' v Ut (proj1 Fx') (proj1 (proj1 Fv)) Nx' (proj2 Fv)) as (c'&->&Oc').
    rewrite (eqv2_l _ _ _ Q) in Oc. rewrite IH.
    assert ((c ?= 0) = (c' ?= 0)) as S0 by congruence.
    assert (c =? 0 = (c' =? 0) /\ c <? 0 = (c' <? 0) /\ 0 <? c = (0 <? c')) as (->&->&->); [|reflexivity].
    destruct (Z.compare_spec c 0), (Z.compare_spec c' 0); try discriminate; repeat split;
      (apply Bool.eq_true_iff_eq; rewrite ?Z.eqb_eq, ?Z.ltb_lt; lia).
Qed.

(* ---- row IN ---- *)

Hypothesis ZZ : forall v, Z v -> no_zero v.

Lemma app0_inj a b x y : ~ List.In 0 a -> ~ List.In 0 b -> a ++ 0 :: x = b ++ 0 :: y -> a = b /\ x = y.
Proof.
  revert b. induction a as [|c a IH]; intros [|d b] Na Nb E; cbn in *.
  - injection E as ->. auto.
  - injection E as E1 E2. exfalso. apply Nb. left. congruence.
  - injection E as E1 E2. exfalso. apply Na. left. congruence.
  - injection E as -> E. destruct (IH b) as (->&->); auto.
Qed.

Lemma make_key_null ts : forall l, existsb is_null l = true -> length ts = length l ->
  make_key ts l = None \/ make_key ts l = Some None.
Proof.
  induction ts as [|t ts IH]; intros [|v l] N E; cbn in *; try discriminate.
  destruct (is_null v); [auto|]. cbn in N. destruct (cast_to t v); [|auto]. destruct (int_text v0); [|auto].
  destruct (IH l N ltac:(congruence)) as [-> | ->]; auto.
Qed.

Definition td (t : ptype) : Prop := usable t /\ t <> PDouble.

Lemma make_key_ok ts : forall l, Forall td ts -> Forall2 (fz Z) ts l ->
  if existsb is_null l then make_key (map mt ts) l = Some None
  else exists k, make_key (map mt ts) l = Some (Some k).
Proof.
  induction ts as [|t ts IH]; intros l U F; inversion F as [|? v ? l' Fv F']; subst; cbn [existsb map make_key]; [eauto|].
  inversion U as [|? ? (Ut&Ud) Us]; subst. destruct (is_null v) eqn:Nv; cbn [orb]; [reflexivity|].
  destruct (cast_mt t v Ut (proj1 Fv) Nv) as (v'&Cv&_). rewrite Cv.
  destruct (fit_key_text t v v v' v' Ut Ud (proj1 Fv) (proj1 Fv) Nv Nv Cv Cv) as (s&_&Es&_). rewrite Es.
  specialize (IH l' Us F'). destruct (existsb is_null l').
  - rewrite IH. reflexivity.
  - destruct IH as (k&->). eauto.
Qed.

Lemma make_key_inj ts : forall l l' k k', Forall td ts -> Forall2 (fz Z) ts l -> Forall2 (fz Z) ts l' ->
  make_key (map mt ts) l = Some (Some k) -> make_key (map mt ts) l' = Some (Some k') ->
  (k = k' <-> Forall2 eqv2 l l').
Proof.
  induction ts as [|t ts IH]; intros l l' k k' U F F'; inversion F as [|? v ? l1 Fv F1]; subst;
    inversion F' as [|? v' ? l2 Fv' F2]; subst; cbn [map make_key].
  - intros E E'. injection E as <-. injection E' as <-. split; auto.
  - inversion U as [|? ? (Ut&Ud) Us]; subst.
    destruct (is_null v) eqn:Nv; [discriminate|]. destruct (is_null v') eqn:Nv'; [discriminate|].
    destruct (cast_mt t v Ut (proj1 Fv) Nv) as (w&Cv&Hw). rewrite Cv.
    destruct (cast_mt t v' Ut (proj1 Fv') Nv') as (w'&Cv'&Hw'). rewrite Cv'.
    destruct (fit_key_text t v v' w w' Ut Ud (proj1 Fv) (proj1 Fv') Nv Nv' Cv Cv') as (s&s'&Es&Es'&Eq&Z1&Z2).
    destruct (fit_key_text t v' v w' w Ut Ud (proj1 Fv') (proj1 Fv) Nv' Nv Cv' Cv) as (s2&_&Es2&_&_&Z1'&Z2').
    assert (s2 = s') as -> by congruence. rewrite Es, Es'.
    destruct (make_key (map mt ts) l1) as [[k1|]|] eqn:K1; try discriminate.
    destruct (make_key (map mt ts) l2) as [[k2|]|] eqn:K2; try discriminate.
    intros E E'. injection E as <-. injection E' as <-.
    assert (Ns : ~ List.In 0 s).
    { destruct (ptype_eq_dec t PString) as [T|T]; [rewrite (Z2 T); apply ZZ, Fv|auto]. }
    assert (Ns' : ~ List.In 0 s').
    { destruct (ptype_eq_dec t PString) as [T|T]; [rewrite (Z2' T); apply ZZ, Fv'|auto]. }
    specialize (IH l1 l2 k1 k2 Us F1 F2 K1 K2). split.
    + intros E. destruct (app0_inj _ _ _ _ Ns Ns' E) as (Ea&Eb). constructor; [apply Eq; exact Ea|apply IH; exact Eb].
    + intros Q. inversion Q as [|? ? ? ? Q1 Q2]; subst. f_equal; [apply Eq; exact Q1|f_equal; apply IH; exact Q2].
Qed.

Lemma row_types_ok ts : forall xs l first, Forall td ts -> Forall2 (leaf_fz Z C) ts xs -> leaf_vals r xs = Some l ->
  existsb is_null l = false -> Forall2 (elem_fz Z) ts first -> row_types xs first = map mt ts.
Proof.
  unfold row_types. induction ts as [|t ts IH]; intros xs l first U F El N G;
    inversion F as [|? x ? xs' Fx F']; subst; inversion G as [|? e ? g' Ge G']; subst; [reflexivity|].
  inversion U as [|? ? (Ut&Ud) Us]; subst. cbn [leaf_vals] in El.
  destruct (leaf_val r x) as [v|] eqn:Ev; [|discriminate]. destruct (leaf_vals r xs') as [l'|] eqn:El'; [|discriminate].
  injection El as <-. cbn in N. apply orb_false_iff in N. destruct N as (Nv&Nl).
  cbn [combine map fst snd]. f_equal; [|eapply IH; eauto].
  apply mt_in; [exact Ut|eapply leaf_type; eauto|apply Ge].
Qed.

Lemma key_set_ok ts rows : Forall td ts -> Forall (fun l => Forall2 (elem_fz Z) ts l) rows ->
  exists s, key_set (map mt ts) rows = Some s /\
    forall l k, Forall2 (fz Z) ts l -> make_key (map mt ts) l = Some (Some k) ->
      (existsb (beqb k) s = true <-> exists g, List.In g rows /\ Forall2 (fun x (e : elem) => eqv2 x (snd e)) l g).
Proof.
  intros U. induction 1 as [|g rows Hg _ (s&Es&Hs)].
  - exists []. split; [reflexivity|]. intros l k _ _. split; [discriminate|]. intros (g&[]&_).
  - cbn [key_set].
    assert (Fg : Forall2 (fz Z) ts (map snd g)).
    { clear - Hg. induction Hg as [|t e ts g He _ IH]; cbn; constructor; auto. destruct He as ((_&H)&Hz&_). split; assumption. }
    assert (Eq : forall l, Forall2 eqv2 l (map snd g) <-> Forall2 (fun x (e : elem) => eqv2 x (snd e)) l g).
    { clear. intros l. revert g. induction l as [|x l IH]; intros [|e g]; split; intros Q; inversion Q; subst; constructor; auto;
        apply IH; auto. }
    pose proof (make_key_ok ts (map snd g) U Fg) as K. destruct (existsb is_null (map snd g)) eqn:Ng.
    + rewrite K, Es. exists s. split; [reflexivity|]. intros l k Fl Ek. rewrite (Hs l k Fl Ek). split.
      * intros (g'&Hg'&Q). exists g'. split; [right; exact Hg'|exact Q].
      * intros (g'&[<-|Hg']&Q); [|eauto]. exfalso. apply Eq in Q.
        apply existsb_exists in Ng. destruct Ng as (v&Hv&Nv). clear - Q Hv Nv.
        induction Q as [|a b l' g' Q1 _ IH]; [destruct Hv|]. destruct Hv as [->|Hv]; [|auto].
        apply eqv2_null in Q1. destruct Q1. congruence.
    + destruct K as (kg&kg_ok). rewrite kg_ok, Es. exists (kg :: s). split; [reflexivity|]. intros l k Fl Ek.
      cbn [existsb]. rewrite orb_true_iff, (Hs l k Fl Ek), beqb_eq.
      rewrite (make_key_inj ts l (map snd g) k kg U Fl Fg Ek kg_ok), Eq. split.
      * intros [Q|(g'&Hg'&Q)]; [exists g; split; [left; reflexivity|exact Q]|exists g'; split; [right; exact Hg'|exact Q]].
      * intros (g'&[<-|Hg']&Q); [left; exact Q|right; eauto].
Qed.

Lemma same_lens ts xs rows : Forall2 (leaf_fz Z C) ts xs -> Forall (fun l => Forall2 (elem_fz Z) ts l) rows ->
  forallb (fun l => same_len xs l) rows = true.
Proof.
  intros L G. apply forallb_forall. intros g Hg. rewrite Forall_forall in G. unfold same_len. apply Nat.eqb_eq.
  rewrite <- (F2_len _ _ _ L). apply (F2_len _ _ _ (G g Hg)).
Qed.

Lemma peval_rowin xs rows hn first q : rows = first :: q -> forallb (fun l => same_len xs l) rows = true ->
  peval r (RowIn xs rows hn) =
    (let ts := row_types xs first in
     let* s := key_set ts rows in let* l := leaf_vals r xs in let* k := make_key ts l in
     Some (match k with None => vnull | Some k' => if existsb (beqb k') s then vbool true else if hn then vnull else vbool false end)).
Proof. intros E S0. unfold peval. rewrite S0. subst rows. reflexivity. Qed.

Lemma nonnull_F2 ts l : Forall td ts -> Forall2 (fz Z) ts l -> existsb is_null l = true ->
  forall g, ~ Forall2 (fun x (e : elem) => eqv2 x (snd e)) l g.
Proof.
  intros _ _ N g Q. apply existsb_exists in N. destruct N as (v&Hv&Nv). induction Q as [|a b l' g' Q1 _ IH]; [destruct Hv|].
  destruct Hv as [->|Hv]; [|auto]. apply eqv2_null in Q1. destruct Q1. congruence.
Qed.

Lemma T_rowin ts xs rows hn : Forall td ts -> Forall2 (leaf_fz Z C) ts xs -> Forall (fun l => Forall2 (elem_fz Z) ts l) rows ->
  (TRUE r (RowIn xs rows hn) <-> exists l g, leaf_vals r xs = Some l /\ List.In g rows /\ Forall2 (fun x (e : elem) => eqv2 x (snd e)) l g).
Proof.
  intros U L G.
  assert (U' : Forall usable ts) by (eapply Forall_impl; [|exact U]; intros a (H&_); exact H).
  destruct (leaf_values ts xs U' L) as (l&El&Fl).
  destruct rows as [|first q] eqn:Er.
  { split; [intros (w&Ew&_); discriminate|]. intros (?&?&_&[]&_). }
  rewrite <- Er in *. pose proof (same_lens ts xs rows L G) as SL.
  pose proof (peval_rowin xs rows hn first q Er SL) as P. cbv zeta in P. rewrite El in P.
  assert (Ff : Forall2 (elem_fz Z) ts first) by (rewrite Er in G; inversion G; subst; assumption).
  destruct (existsb is_null l) eqn:N.
  - split.
    + intros (w&Ew&Nw&_). rewrite P in Ew. destruct (key_set _ rows); [|discriminate].
      assert (length (row_types xs first) = length l) as Len.
      { unfold row_types. rewrite map_length, combine_length, (leaf_vals_len xs l El), <- (F2_len _ _ _ L), <- (F2_len _ _ _ Ff). lia. }
      destruct (make_key_null _ l N Len) as [E|E]; rewrite E in Ew; [discriminate|]. injection Ew as <-. discriminate.
    + intros (l'&g&El'&_&Q). assert (l' = l) as -> by congruence. exfalso. exact (nonnull_F2 ts l U Fl N g Q).
  - rewrite (row_types_ok ts xs l first U L El N Ff) in P.
    destruct (key_set_ok ts rows U G) as (s&Es&Hs). rewrite Es in P.
    pose proof (make_key_ok ts l U Fl) as K. rewrite N in K. destruct K as (k&Ek). rewrite Ek in P.
    specialize (Hs l k Fl Ek). transitivity (existsb (beqb k) s = true).
    + destruct (existsb (beqb k) s); [apply TRUE_vbool; exact P|]. split; [|discriminate].
      intros T. exfalso. destruct hn; [eapply TRUE_null; eauto; reflexivity|apply TRUE_vbool in P; apply P in T; discriminate].
    + rewrite Hs. split; [intros (g&Hg&Q); eauto 6|]. intros (l'&g&El'&Hg&Q). assert (l' = l) as -> by congruence. eauto.
Qed.

(* all the operands are columns, or constants that are not NULL: a row IN has a value *)
Definition solid (x : leaf) : Prop := match x with LSlot _ _ => True | LVal w => is_null w = false end.

Lemma row_types_solid ts : forall xs first, Forall td ts -> Forall2 (leaf_fz Z C) ts xs -> Forall solid xs ->
  Forall2 (elem_fz Z) ts first -> row_types xs first = map mt ts.
Proof.
  unfold row_types. induction ts as [|t ts IH]; intros xs first U F So G;
    inversion F as [|? x ? xs' Fx F']; subst; inversion G as [|? e ? g' Ge G']; subst; [reflexivity|].
  inversion U as [|? ? (Ut&Ud) Us]; subst. inversion So; subst. cbn [combine map fst snd]. f_equal; [|eapply IH; eauto].
  apply mt_in; [exact Ut| |apply Ge]. destruct x as [i u|w]; cbn in *; [left; apply Fx|].
  destruct Fx as ((_&[N|H])&_); [congruence|exact H].
Qed.

Lemma D_rowin ts xs rows hn : Forall td ts -> Forall2 (leaf_fz Z C) ts xs -> Forall solid xs ->
  Forall (fun l => Forall2 (elem_fz Z) ts l) rows -> rows <> [] -> exists w, peval r (RowIn xs rows hn) = Some w.
Proof.
  intros U L So G NE.
  assert (U' : Forall usable ts) by (eapply Forall_impl; [|exact U]; intros a (H&_); exact H).
  destruct (leaf_values ts xs U' L) as (l&El&Fl).
  destruct rows as [|first q] eqn:Er; [congruence|].
  rewrite <- Er in *. pose proof (same_lens ts xs rows L G) as SL.
  pose proof (peval_rowin xs rows hn first q Er SL) as P. cbv zeta in P.
  assert (Ff : Forall2 (elem_fz Z) ts first) by (rewrite Er in G; inversion G; subst; assumption).
  rewrite (row_types_solid ts xs first U L So Ff), El in P.
  destruct (key_set_ok ts rows U G) as (s&Es&_). rewrite Es in P.
  pose proof (make_key_ok ts l U Fl) as K. destruct (existsb is_null l).
  - rewrite K in P. rewrite P. eauto.
  - destruct K as (k&Ek). rewrite Ek in P. rewrite P. eauto.
Qed.
End Row.

