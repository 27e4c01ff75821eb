(* aggregate values over lists of values *)
From Coq Require Import List ZArith Bool Lia Sorting.Permutation Sorting.Sorted.
From Verif Require Import Common.Bytes Key.Model Key.Spec Key.ProofsTop Agg.Model Agg.Spec Agg.Bits.
Import ListNotations.
Local Open Scope Z_scope.

Lemma nonnull_app {A} (e : row -> option A) a b : nonnull e (a ++ b) = nonnull e a ++ nonnull e b.
Proof. apply flat_map_app. Qed.
Lemma nonnull_cons {A} (e : row -> option A) r b : nonnull e (r :: b) = match e r with Some v => v :: nonnull e b | None => nonnull e b end.
Proof. unfold nonnull. cbn [flat_map]. destruct (e r); reflexivity. Qed.
Lemma nonnull_perm {A} (e : row -> option A) a b : Permutation a b -> Permutation (nonnull e a) (nonnull e b).
Proof. intros P. unfold nonnull. apply Permutation_flat_map, P. Qed.
Lemma nonnull_in {A} (e : row -> option A) a v : In v (nonnull e a) <-> exists r, In r a /\ e r = Some v.
Proof.
  unfold nonnull. rewrite in_flat_map. split.
  - intros (r & Hr & Hv). exists r. destruct (e r); [|contradiction]. destruct Hv as [->|[]]. auto.
  - intros (r & Hr & E). exists r. rewrite E. split; [assumption|left; reflexivity].
Qed.

Definition sumspec (uns : bool) (l : list Z) : option aval :=
  match l with [] => None | _ => Some (AV (VNum (wrap uns (zsum l)))) end.
Definition extspec (up : bool) (t : coltype) (l : list value) (v : option aval) : Prop :=
  match l with
  | [] => v = None
  | _ => exists w, v = Some (AV w) /\ In w l /\ forall u, In u l -> value_compare t w u <> (if up then Lt else Gt)
  end.

Lemma sumspec_cons uns z l : add_slot uns (sumspec uns l) z = sumspec uns (z :: l).
Proof.
  destruct l as [|y l]; cbn [sumspec add_slot].
  - rewrite zsum_cons. cbn. rewrite Z.add_0_r. reflexivity.
  - rewrite wrap_add. do 3 f_equal. rewrite !zsum_cons. f_equal. lia.
Qed.
Lemma sumspec_app uns l2 l1 z : sumspec uns l2 = Some (AV (VNum z)) -> add_slot uns (sumspec uns l1) z = sumspec uns (l2 ++ l1).
Proof.
  destruct l2 as [|y l2]; [discriminate|]. intros E. injection E as <-.
  destruct l1 as [|x l1].
  - rewrite app_nil_r. cbn [sumspec add_slot]. do 3 f_equal.
    change (wrap uns (wrap uns (zsum (y :: l2))) = wrap uns (zsum (y :: l2))).
    destruct (wrap_mod uns (zsum (y :: l2))) as (k & Hk). rewrite Hk at 1. apply wrap_period.
  - cbn [sumspec add_slot app]. rewrite wrap_add2. do 3 f_equal. rewrite !zsum_cons, zsum_app, zsum_cons. f_equal. lia.
Qed.
Lemma sumspec_perm uns a b : Permutation a b -> sumspec uns a = sumspec uns b.
Proof.
  intros P. destruct a as [|x a].
  - apply Permutation_nil in P. now subst.
  - destruct b as [|y b]; [apply Permutation_sym, Permutation_nil in P; discriminate|].
    cbn [sumspec]. now rewrite (zsum_perm _ _ P).
Qed.

Lemma extspec_perm up t a b v : Permutation a b -> extspec up t a v -> extspec up t b v.
Proof.
  intros P. destruct a as [|x a].
  - apply Permutation_nil in P. now subst.
  - destruct b as [|y b]; [apply Permutation_sym, Permutation_nil in P; discriminate|].
    cbn [extspec]. intros (w & E & Hin & Hm). exists w. split; [exact E|]. split.
    + eapply Permutation_in; eauto.
    + intros u Hu. apply Hm. eapply Permutation_in; [apply Permutation_sym|]; eauto.
Qed.
Definition worse (up : bool) := if up then Lt else Gt.
Lemma vc_trans_ext up t u v w : value_compare t u v <> worse up -> value_compare t v w <> worse up -> value_compare t u w <> worse up.
Proof.
  destruct up; cbn [worse]; [|apply vcompare_trans].
  intros A B. rewrite (vcompare_antisym t v u) in A. rewrite (vcompare_antisym t w v) in B. rewrite (vcompare_antisym t w u).
  assert (value_compare t w u <> Gt) as C.
  { apply vcompare_trans with v; intros E; [rewrite E in B|rewrite E in A]; cbn in *; congruence. }
  destruct (value_compare t w u); cbn; congruence.
Qed.
Lemma better_spec up t w v : exists u, better up t (Some (AV w)) v = Some (AV u) /\ (u = w \/ u = v) /\
  value_compare t u w <> worse up /\ value_compare t u v <> worse up.
Proof.
  unfold better. destruct (value_compare t w v) eqn:E, up; cbn [worse];
    first [ exists w; split; [reflexivity|]; split; [auto|]; split; [rewrite value_compare_refl; discriminate|rewrite E; discriminate]
          | exists v; split; [reflexivity|]; split; [auto|]; split; [rewrite (vcompare_antisym t w v), E; discriminate|rewrite value_compare_refl; discriminate] ].
Qed.
Lemma extspec_app up t l2 l1 v old : extspec up t l2 (Some (AV v)) -> extspec up t l1 old ->
  extspec up t (l2 ++ l1) (better up t old v).
Proof.
  destruct l2 as [|x l2]; [discriminate|]. intros (v' & E & Hin & Hm). injection E as <-.
  intros Ho. cbn [extspec app]. destruct l1 as [|y l1].
  - cbn [extspec] in Ho. subst. rewrite app_nil_r. exists v. cbn [better]. auto.
  - destruct Ho as (w & -> & Hw & Hmw). destruct (better_spec up t w v) as (u & E & Hu & U1 & U2).
    exists u. split; [exact E|]. split.
    + change (x :: l2 ++ y :: l1) with ((x :: l2) ++ y :: l1). apply in_app_iff. destruct Hu; subst; auto.
    + intros z Hz. change (x :: l2 ++ y :: l1) with ((x :: l2) ++ y :: l1) in Hz. apply in_app_iff in Hz.
      destruct Hz as [Hz|Hz]; [apply (vc_trans_ext up t u v z U2 (Hm z Hz))|apply (vc_trans_ext up t u w z U1 (Hmw z Hz))].
Qed.
Lemma extspec_one up t v : extspec up t [v] (Some (AV v)).
Proof.
  exists v. split; [reflexivity|]. split; [left; reflexivity|]. intros u [<-|[]]. rewrite value_compare_refl. destruct up; discriminate.
Qed.
Lemma extspec_cons up t l1 v old : extspec up t l1 old -> extspec up t (v :: l1) (better up t old v).
Proof. intros Ho. apply (extspec_app up t [v] l1 v old (extspec_one up t v) Ho). Qed.

(* ---- text ---- *)

Lemma strings_text es r : strings es r = row_text es r.
Proof.
  unfold row_text. induction es as [|e es IH]; cbn [strings flat_map]; [reflexivity|].
  destruct (e r) as [s|]; cbn [app]; [|exact IH]. rewrite IH.
  destruct (flat_map _ es) as [|u l]; cbn [concat app]; [now rewrite app_nil_r|reflexivity].
Qed.
Lemma joined_snoc sep l s : joined sep (l ++ [s]) = concat_slot sep (joined sep l) s.
Proof.
  destruct l as [|x l]; cbn [joined app concat_slot flat_map]; [now rewrite app_nil_r|].
  rewrite flat_map_app. cbn [flat_map]. rewrite app_nil_r, app_assoc. reflexivity.
Qed.
Lemma joined_app sep l l' s : joined sep l' = Some (AV (VStr s)) -> joined sep (l ++ l') = concat_slot sep (joined sep l) s.
Proof.
  destruct l' as [|y l']; [discriminate|]. intros E. injection E as <-.
  destruct l as [|x l]; cbn [joined app concat_slot flat_map]; [reflexivity|].
  rewrite flat_map_app. cbn [flat_map]. rewrite <- !app_assoc. reflexivity.
Qed.

(* ---- sorting by keys ---- *)

Definition le_key (ks : list (coltype * bool)) (a b : batch_row) : Prop := key_compare ks (fst a) (fst b) <> Gt.

Lemma key_order keys r r' : key_compare (key_types keys) (key_values keys r) (key_values keys r') = order_compare keys r r'.
Proof.
  unfold key_types, key_values. induction keys as [|[[t e] asc] q IH]; cbn [map key_compare order_compare fst snd]; [reflexivity|].
  unfold column_compare. rewrite IH. destruct (e r) as [v|], (e r') as [w|]; destruct asc; cbn [CompOpp]; try reflexivity;
  destruct (value_compare t v w); reflexivity.
Qed.

Lemma col_antisym t asc a b : column_compare t asc b a = CompOpp (column_compare t asc a b).
Proof.
  unfold column_compare. destruct a as [v|], b as [w|]; rewrite ?(vcompare_antisym t v w); destruct asc; cbn; try reflexivity.
Qed.
Lemma col_trans t asc a b c : column_compare t asc a b <> Gt -> column_compare t asc b c <> Gt -> column_compare t asc a c <> Gt.
Proof.
  unfold column_compare. destruct a as [v|], b as [w|], c as [u|], asc; cbn [CompOpp]; try congruence; try (intros; discriminate).
  - apply vcompare_trans.
  - pose proof (vc_trans_ext true t v w u) as T. cbn [worse] in T.
    destruct (value_compare t v w), (value_compare t w u), (value_compare t v u); cbn in *; try congruence; intros; exfalso; apply T; congruence.
Qed.
Lemma col_eq_l t asc a b c : column_compare t asc a b = Eq -> column_compare t asc a c = column_compare t asc b c.
Proof.
  intros E. assert (E' : column_compare t asc b a = Eq) by (rewrite (col_antisym t asc a b), E; reflexivity).
  pose proof (col_trans t asc a b c) as T1. pose proof (col_trans t asc b a c) as T2.
  pose proof (col_trans t asc c b a) as T3. pose proof (col_trans t asc c a b) as T4.
  rewrite (col_antisym t asc b c), (col_antisym t asc a c) in *. rewrite E, E' in *.
  destruct (column_compare t asc a c), (column_compare t asc b c); cbn in *; try reflexivity; exfalso;
  first [apply T1; congruence|apply T2; congruence|apply T3; congruence|apply T4; congruence].
Qed.

Lemma kc_col ks a b : key_compare ks a b =
  match ks, a, b with
  | (t, asc) :: ks', x :: a', y :: b' => match column_compare t asc x y with Eq => key_compare ks' a' b' | c => c end
  | _, _, _ => Eq
  end.
Proof.
  destruct ks as [|[t asc] ks], a as [|x a], b as [|y b]; try reflexivity. cbn [key_compare]. unfold column_compare.
  destruct x as [v|], y as [w|], asc; cbn [CompOpp]; try reflexivity; destruct (value_compare t v w); reflexivity.
Qed.
Lemma kc_antisym ks : forall a b, key_compare ks b a = CompOpp (key_compare ks a b).
Proof.
  induction ks as [|[t asc] ks IH]; intros a b; rewrite (kc_col _ a b), (kc_col _ b a); [reflexivity|].
  destruct a as [|x a], b as [|y b]; try reflexivity. rewrite (col_antisym t asc x y).
  destruct (column_compare t asc x y); cbn [CompOpp]; auto.
Qed.
Lemma kc_trans ks : forall a b c, length a = length ks -> length b = length ks -> length c = length ks ->
  key_compare ks a b <> Gt -> key_compare ks b c <> Gt -> key_compare ks a c <> Gt.
Proof.
  induction ks as [|[t asc] ks IH]; intros a b c La Lb Lc;
    rewrite (kc_col _ a b), (kc_col _ b c), (kc_col _ a c); [congruence|].
  destruct a as [|x a], b as [|y b], c as [|z c]; try discriminate. cbn [length] in *.
  intros H1 H2. destruct (column_compare t asc x y) eqn:E1; [|destruct (column_compare t asc y z) eqn:E2|congruence].
  - rewrite (col_eq_l t asc x y z E1). destruct (column_compare t asc y z); [|congruence|congruence].
    apply (IH a b c); auto.
  - assert (E3 : column_compare t asc z y = Eq) by (rewrite (col_antisym t asc y z), E2; reflexivity).
    rewrite (col_antisym t asc z x), (col_eq_l t asc z y x E3), <- (col_antisym t asc y x), E1. congruence.
  - assert (T : column_compare t asc x z <> Gt) by (apply (col_trans t asc x y z); congruence).
    destruct (column_compare t asc x z) eqn:E3; [|congruence|congruence].
    exfalso. assert (E4 : column_compare t asc z x = Eq) by (rewrite (col_antisym t asc x z), E3; reflexivity).
    rewrite (col_antisym t asc z y), (col_eq_l t asc z x y E4), E1 in E2. discriminate.
  - congruence.
Qed.

Lemma insert_perm ks x l : Permutation (x :: l) (insert_by ks x l).
Proof.
  induction l as [|y l IH]; cbn [insert_by]; [reflexivity|]. destruct (key_compare ks (fst x) (fst y)); try reflexivity.
  rewrite perm_swap. constructor. exact IH.
Qed.
Lemma sort_perm ks l : Permutation l (sort_by ks l).
Proof.
  induction l as [|x l IH]; cbn [sort_by fold_right]; [constructor|]. etransitivity; [|apply insert_perm]. now constructor.
Qed.
Lemma insert_sorted ks x l : Forall (fun b => length (fst b) = length ks) (x :: l) -> StronglySorted (le_key ks) l ->
  StronglySorted (le_key ks) (insert_by ks x l).
Proof.
  intros F S0. inversion F as [|? ? Lx Fl]; subst. clear F. induction S0 as [|y l Sl IH Hy]; cbn [insert_by]; [repeat constructor|].
  inversion Fl as [|? ? Ly Fl']; subst.
  destruct (key_compare ks (fst x) (fst y)) eqn:E.
  3:{ constructor; [apply IH; assumption|]. apply Forall_forall. intros z Hz.
      apply (Permutation_in z (Permutation_sym (insert_perm ks x l))) in Hz. destruct Hz as [<-|Hz].
      - unfold le_key. rewrite (kc_antisym ks (fst x)), E. discriminate.
      - rewrite Forall_forall in Hy. auto. }
  all: constructor; [constructor; assumption|]; constructor; [unfold le_key; rewrite E; discriminate|];
    apply Forall_forall; intros z Hz; unfold le_key; apply kc_trans with (fst y);
    [assumption|assumption| rewrite Forall_forall in Fl'; auto | rewrite E; discriminate | rewrite Forall_forall in Hy; apply (Hy z Hz)].
Qed.
Lemma sort_sorted ks l : Forall (fun b => length (fst b) = length ks) l -> StronglySorted (le_key ks) (sort_by ks l).
Proof.
  intros F. induction F as [|x l Hx F IH]; cbn [sort_by fold_right]; [constructor|].
  apply insert_sorted; [|exact IH]. constructor; [assumption|].
  apply Forall_forall. intros z Hz. apply (Permutation_in z (Permutation_sym (sort_perm ks l))) in Hz.
  rewrite Forall_forall in F. auto.
Qed.
