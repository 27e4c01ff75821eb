(* Where the range of every column comes from. *)
From Coq Require Import List ZArith Lia Bool.
From Verif Require Import Common.Bytes Common.KV Key.Model Key.Spec Key.ProofsKey Key.ProofsTop.
From Verif Require Import Like.Model Like.Spec Like.Proofs2 Path.Model Path.Spec.
Import ListNotations.
Local Open Scope Z_scope.

(* ---- constants ---- *)
Lemma cast_ok t v : value_ok t v -> cast t v = v.
Proof.
  destruct t, v as [z|s]; cbn; try tauto; unfold int_val_ok, to_unsigned; cbn [int_range]; intros H; f_equal;
    try (apply to_signed_id; lia); try (apply Z.mod_small; lia).
  destruct (Z.eqb_spec z 0); lia.
Qed.

Lemma all_some_eq {A} (ks : list (option A)) vs : all_some ks = Some vs <-> ks = map Some vs.
Proof.
  revert vs. induction ks as [|k ks IH]; intros vs; cbn.
  - split; [intros [= <-]; auto|]. destruct vs; [auto|discriminate].
  - destruct k as [v|]; [|split; [discriminate|destruct vs; discriminate]].
    destruct (all_some ks) as [w|] eqn:Q.
    + split; [intros [= <-]; cbn; f_equal; apply IH; auto|].
      destruct vs as [|u us]; [discriminate|]. intros [= -> X]. f_equal. f_equal. apply IH in X. congruence.
    + split; [discriminate|]. destruct vs as [|u us]; [discriminate|]. intros [= -> X]. apply IH in X. discriminate.
Qed.
Lemma all_some_none {A} (ks : list (option A)) : all_some ks = None <-> In None ks.
Proof.
  induction ks as [|k ks IH]; cbn; [split; [discriminate|tauto]|]. destruct k as [v|]; [|tauto].
  destruct (all_some ks); split; try discriminate; try tauto.
  - intros [X|X]; [discriminate|]. apply IH in X. discriminate.
Qed.
Lemma somes_in {A} (x : A) ks : In x (somes ks) <-> In (Some x) ks.
Proof.
  unfold somes. rewrite in_flat_map. split.
  - intros ([v|] & H & X); cbn in X; [destruct X as [->|[]]; auto|tauto].
  - intros H. exists (Some x). cbn. auto.
Qed.

Section Hit.
Variables (E : env) (cs : list cond).
Hypothesis (OK : Forall (cond_ok E) cs) (APART : rows_apart cs).
Notation t_ := (ct E).

(* the row has these values, as SQL compares *)
Definition eqv (r : row) (f : nat) (v : value) : Prop := exists w, r f = Some w /\ value_compare (t_ f) w v = Eq.
Definition agree (r : row) (fs : list nat) (vs : list value) : Prop := Forall2 (eqv r) fs vs.
Definition okv (f : nat) (v : value) : Prop := value_ok (t_ f) v.

(* the columns a condition fixes and the finitely many tuples it allows *)
Definition rows_of (c : cond) : option (list nat * list (list value)) :=
  match c with
  | CCmp OEq f (Some v) => Some ([f], [[v]])
  | CIn f ks => Some ([f], map (fun v => [v]) (somes ks))
  | CRow OEq fs ks => match all_some ks with Some vs => Some (fs, [vs]) | None => None end
  | CRowIn fs kss => Some (fs, somes (map all_some kss))
  | CLike f (Some p) => match index_for_like p with IREqual s => Some ([f], [[VStr s]]) | _ => None end
  | _ => None
  end.

Lemma hit_loop_in p : forall b x, In x (snd (hit_loop p b)) -> In x p.
Proof.
  induction p as [|c p IH]; intros b x; cbn; auto.
  destruct (negb b && (c =? 37)); [cbn; tauto|]. destruct (negb b && (c =? 95)); [cbn; tauto|].
  destruct (negb b && (c =? 92)); [intros H; right; eauto|].
  destruct (hit_loop p false) as [e s] eqn:Q. cbn. intros [->|H]; auto. right. apply (IH false). rewrite Q. auto.
Qed.
Lemma like_const p : no_nul p -> match index_for_like p with IREqual s | IRPrefix s => no_nul s | IRAll => True end.
Proof.
  intros N. unfold index_for_like, hit_index.
  assert (G : no_nul (snd (hit_loop p false))).
  { unfold no_nul in *. rewrite Forall_forall in *. intros x Hx. apply N. eapply hit_loop_in; eauto. }
  destruct (hit_loop p false) as [e s]. cbn in G. destruct e; auto.
  destruct (match p with [] => true | _ => _ end); auto.
Qed.

Lemma rows_ok c ids rows : cond_ok E c -> rows_of c = Some (ids, rows) -> Forall (Forall2 okv ids) rows.
Proof.
  destruct c as [o f [k|]|f ks|o fs ks|fs kss|f [p|]|f h|h]; cbn; try discriminate.
  - destruct o; try discriminate. intros H [= <- <-]. repeat constructor; auto.
  - destruct o; discriminate.
  - intros H [= <- <-]. rewrite Forall_map, Forall_forall in *. intros v Hv. apply somes_in in Hv.
    apply H in Hv. repeat constructor. auto.
  - destruct o; try discriminate. intros (_ & _ & H). destruct (all_some ks) as [vs|] eqn:Q; [|discriminate].
    intros [= <- <-]. constructor; [|constructor]. apply all_some_eq in Q. subst ks.
    revert H. generalize vs. clear. induction fs as [|f fs IH]; intros [|v vs] H; inversion H; subst; constructor; auto.
  - intros (_ & _ & H) [= <- <-]. rewrite Forall_forall in *. intros vs Hv. apply somes_in in Hv.
    apply in_map_iff in Hv. destruct Hv as (ks & Q & Hk). apply all_some_eq in Q. subst ks. specialize (H _ Hk).
    revert H. generalize vs. clear. induction fs as [|f fs IH]; intros [|v vs] H; inversion H; subst; constructor; auto.
  - intros (T & N & _). destruct (index_for_like p) eqn:Q; try discriminate. intros [= <- <-].
    repeat constructor. unfold okv. rewrite T. cbn. pose proof (like_const p N) as G. rewrite Q in G. auto.
Qed.

Lemma row_equal_agree r fs vs : length vs = length fs ->
  row_equal (map t_ fs) (map r fs) (map Some vs) = true <-> agree r fs vs.
Proof.
  revert vs. induction fs as [|f fs IH]; intros [|v vs] L; cbn in *; try discriminate; [split; [constructor|auto]|].
  rewrite andb_true_iff, IH by lia. unfold agree, cmp_true. split.
  - intros [X Y]. constructor; auto. unfold eqv. destruct (r f) as [w|]; [|discriminate].
    exists w. split; auto. cbn in X. destruct (value_compare (t_ f) w v); auto; discriminate.
  - intros H. inversion H as [|? ? ? ? (w & X & Y) Z]; subst. split; auto. rewrite X. cbn. rewrite Y. auto.
Qed.
Lemma row_equal_none r fs ks : length ks = length fs -> In None ks -> row_equal (map t_ fs) (map r fs) ks = false.
Proof.
  revert ks. induction fs as [|f fs IH]; intros [|k ks] L H; cbn in *; try discriminate; [tauto|].
  destruct H as [->|H]; [unfold cmp_true; destruct (r f); auto|]. rewrite IH; auto. apply andb_false_r.
Qed.
Lemma F2_len {A B} (P : A -> B -> Prop) l m : Forall2 P l m -> length l = length m.
Proof. induction 1; cbn; auto. Qed.
Lemma cmp_eqv r f v : cmp_true (t_ f) OEq (r f) (Some v) = true <-> eqv r f v.
Proof.
  unfold cmp_true, eqv. destruct (r f) as [w|].
  - cbn. split.
    + intros H. exists w. split; auto. destruct (value_compare (t_ f) w v); auto; discriminate.
    + intros (w' & [= <-] & ->). auto.
  - split; [discriminate|intros (w & X & _); discriminate].
Qed.

Lemma rows_hold c ids rows r : cond_ok E c -> rows_of c = Some (ids, rows) ->
  match c with CLike f _ => forall v, r f = Some v -> value_ok (t_ f) v | _ => True end ->
  holds E r c = true <-> exists vs, In vs rows /\ agree r ids vs.
Proof.
  destruct c as [o f [k|]|f ks|o fs ks|fs kss|f [p|]|f h|h]; cbn; try discriminate.
  - destruct o; try discriminate. intros H [= <- <-] _. rewrite (cmp_eqv r f k). split.
    + intros X. exists [k]. split; [left; auto|]. repeat constructor; auto.
    + intros (vs & [<-|[]] & X). inversion X; subst; auto.
  - destruct o; discriminate.
  - intros H [= <- <-] _. rewrite existsb_exists. split.
    + intros ([v|] & X & Y); [|unfold cmp_true in Y; destruct (r f); discriminate].
      exists [v]. split; [apply in_map_iff; exists v; split; auto; apply somes_in; auto|]. apply cmp_eqv in Y. repeat constructor; auto.
    + intros (vs & X & Y). apply in_map_iff in X. destruct X as (v & <- & X). exists (Some v). split; [apply somes_in; auto|].
      apply cmp_eqv. inversion Y; subst; auto.
  - destruct o; try discriminate. intros (L & _ & H). destruct (all_some ks) as [vs|] eqn:Q; [|discriminate].
    intros [= <- <-] _. apply all_some_eq in Q. subst ks. apply F2_len in H. rewrite map_length in H. rewrite row_equal_agree by auto.
    split; [intros X; exists vs; split; [left|]; auto|intros (u & [<-|[]] & X); auto].
  - intros (L & _ & H) [= <- <-] _. rewrite existsb_exists. rewrite Forall_forall in H. split.
    + intros (ks & X & Y). pose proof (F2_len _ _ _ (H ks X)) as LL. destruct (all_some ks) as [vs|] eqn:Q.
      * exists vs. pose proof Q as Q'. apply all_some_eq in Q'. subst ks. split; [apply somes_in; rewrite <- Q; apply in_map; auto|].
        rewrite map_length in LL. apply row_equal_agree; auto.
      * apply all_some_none in Q. rewrite row_equal_none in Y; auto. discriminate.
    + intros (vs & X & Y). apply somes_in in X. apply in_map_iff in X. destruct X as (ks & Q & X). apply all_some_eq in Q. subst ks.
      exists (map Some vs). split; auto. apply row_equal_agree; auto. apply F2_len in Y. auto.
  - intros (T & N & LE & pc & -> & CH & GB). destruct (index_for_like (concat pc)) eqn:Q; try discriminate.
    intros [= <- <-] V. assert (G := fun t => served_eq (e_cs E) pc s t CH GB Q LE). split.
    + destruct (r f) as [w|] eqn:R; [|discriminate]. intros X. exists [VStr s]. split; [left; auto|].
      repeat constructor. exists w. split; auto. specialize (V w eq_refl). rewrite T in V |- *. destruct w as [z|u]; cbn in V; [tauto|].
      cbn in X |- *. apply G in X. subst. apply bcompare_refl.
    + intros (vs & [<-|[]] & X). inversion X as [|? ? ? ? (w & R & Y) _]; subst. rewrite R. specialize (V w R). rewrite T in *.
      destruct w as [z|u]; cbn in V, Y |- *; [tauto|]. apply bcompare_eq in Y. subst. apply G. auto.
Qed.
Lemma rows_fixes c ids rows : rows_of c = Some (ids, rows) -> fixes c = ids.
Proof.
  destruct c as [o f [k|]|f ks|o fs ks|fs kss|f [p|]|f h|h]; cbn; try discriminate.
  - destruct o; try discriminate. congruence.
  - destruct o; discriminate.
  - congruence.
  - destruct o; try discriminate. destruct (all_some ks); congruence.
  - congruence.
  - destruct (index_for_like p); congruence.
Qed.
Lemma rows_len1_one_row c ids vs : rows_of c = Some (ids, [vs]) -> (match c with CRow _ _ _ | CRowIn _ _ => True | _ => False end) -> one_row c.
Proof.
  destruct c as [o f [k|]|f ks|o fs ks|fs kss|f [p|]|f h|h]; cbn; try tauto.
  - destruct o; try discriminate; auto.
  - intros [= <- H] _. revert H. induction kss as [|ks kss IH]; cbn; [discriminate|].
    destruct (all_some ks) as [w|] eqn:Q; cbn.
    + intros [= -> H]. exists [], kss, ks. split; auto. split; [intros X; apply all_some_none in X; congruence|].
      cbn. rewrite Forall_forall. intros k Hk. apply all_some_none. destruct (all_some k) as [u|] eqn:X; auto.
      assert (Z : In u (somes (map all_some kss))) by (apply somes_in; rewrite <- X; apply in_map; auto).
      fold (somes (map all_some kss)) in H. rewrite H in Z. destruct Z.
    + intros H. destruct (IH H) as (a & b & k & -> & X & Y). exists (ks :: a), b, k. split; auto. split; auto.
      cbn. constructor; auto. apply all_some_none. auto.
Qed.

(* ---- the source of a range ---- *)
Definition lower_op (o : cmpop) : option bool := match o with OGt => Some true | OGe => Some false | _ => None end.
Definition upper_op (o : cmpop) : option bool := match o with OLt => Some true | OLe => Some false | _ => None end.
(* a bound that comes from condition [n]: on one column, or on a row of columns *)
Definition bsrc (op : cmpop -> option bool) (f : nat) (n : option nat) (open : bool) (ids : list nat) (vs : list value) : Prop :=
  exists k o, n = Some k /\ op o = Some open /\
  ((exists v, vs = [v] /\ okv f v /\ nth_error cs k = Some (CCmp o f (Some v))) \/
   (exists q, ids = f :: q /\ q <> [] /\ Forall2 okv ids vs /\ nth_error cs k = Some (CRow o ids (map Some vs)))).

Definition is_rowc (c : cond) : bool := match c with CRow _ _ _ | CRowIn _ _ => true | _ => false end.
Definition fixsrc (f : nat) (fr : frange) : Prop :=
  exists n c ids rows i, nth_error cs n = Some c /\ rows_of c = Some (ids, rows) /\ nth_error ids i = Some f /\
    fr_eq fr = map (fun l => nth i l (VNum 0)) rows /\ fr_conds fr = [n] /\
    fr_row fr = is_rowc c /\ (fr_row fr = true -> fr_lids fr = ids) /\
    match fr_type fr with RIn => (2 <= length rows)%nat | _ => length rows = 1%nat end.

Definition src (f : nat) (fr : frange) : Prop :=
  match fr_type fr with
  | RNone | RMatch => False
  | RRange => fr_conds fr = [] /\ fr_eq fr = [] /\
      (fr_left fr = [] \/ bsrc lower_op f (fr_lexpr fr) (fr_lopen fr) (fr_lids fr) (fr_left fr)) /\
      (fr_right fr = [] \/ bsrc upper_op f (fr_rexpr fr) (fr_ropen fr) (fr_rids fr) (fr_right fr))
  | REq | RLikeEq | RIn => fixsrc f fr
  | RLikePrefix => exists n p s, nth_error cs n = Some (CLike f (Some p)) /\ index_for_like p = IRPrefix s /\
      fr_eq fr = [VStr s] /\ fr_conds fr = [n]
  | RLike => exists n p, nth_error cs n = Some (CLike f (Some p)) /\ fr_eq fr = [] /\ fr_conds fr = [n]
  end.
Definition inv (m : fmap) : Prop := forall f fr, In f (avail E) -> m f = Some fr -> src f fr.

Lemma inv_set m f fr : inv m -> (In f (avail E) -> src f fr) -> inv (fset m f fr).
Proof.
  intros I S g gr Hg. unfold fset. destruct (Nat.eqb_spec g f) as [->|N]; [intros [= <-]; auto|apply I; auto].
Qed.
Lemma src_conds f fr : src f fr -> fr_conds fr = [] \/ exists n c, fr_conds fr = [n] /\ nth_error cs n = Some c /\ In f (fixes c).
Proof.
  unfold src. destruct (fr_type fr); try tauto.
  - intros (n & c & ids & rows & i & X & Y & Z & _ & W & _). right. exists n, c. rewrite (rows_fixes _ _ _ Y). split; auto. split; auto. eapply nth_error_In; eauto.
  - intros (n & p & X & _ & W). right. exists n, (CLike f (Some p)). cbn. auto.
  - intros (n & c & ids & rows & i & X & Y & Z & _ & W & _). right. exists n, c. rewrite (rows_fixes _ _ _ Y). split; auto. split; auto. eapply nth_error_In; eauto.
  - intros (n & p & s & X & _ & _ & W). right. exists n, (CLike f (Some p)). cbn. auto.
  - intros (n & c & ids & rows & i & X & Y & Z & _ & W & _). right. exists n, c. rewrite (rows_fixes _ _ _ Y). split; auto. split; auto. eapply nth_error_In; eauto.
Qed.
Lemma weight_range t : (5 <? weight t)%nat = false -> is_range t = false -> t = RNone \/ t = RLike \/ t = RLikePrefix \/ t = RMatch.
Proof. destruct t; cbn; auto; discriminate. Qed.

Lemma fget_src m f : inv m -> In f (avail E) -> fget m f = fr0 \/ src f (fget m f).
Proof. intros I H. unfold fget. destruct (m f) eqn:Q; auto. Qed.

Lemma hit_bound_inv (lf : bool) n (open : bool) f ids vs m : inv m ->
  (vs <> [] -> bsrc (if lf then lower_op else upper_op) f (Some n) open ids vs) ->
  (ids = [] -> exists v, vs = [v] /\ okv f v /\ exists o, (if lf then lower_op else upper_op) o = Some open /\ nth_error cs n = Some (CCmp o f (Some v))) ->
  vs <> [] ->
  inv (hit_bound lf n open f ids vs m).
Proof.
  intros I B0 B1 NV. unfold hit_bound. destruct (5 <? weight (fr_type (fget m f)))%nat eqn:W; auto.
  set (fr := if is_range (fr_type (fget m f)) then fget m f else fr0).
  assert (R : In f (avail E) -> fr = fr0 \/ fr_type fr = RRange /\ src f fr).
  { intros Hf. unfold fr. destruct (is_range (fr_type (fget m f))) eqn:Q; auto. right.
    destruct (fget_src m f I Hf) as [X|X]; [rewrite X in Q; discriminate|]. split; auto. destruct (fr_type (fget m f)); try discriminate; auto. }
  specialize (B0 NV).
  destruct lf.
  - destruct (fr_left fr) as [|x xs] eqn:L; cbn [is_nil].
    + apply inv_set; auto. intros Hf. specialize (R Hf). unfold src, set_left. cbn.
      assert (Z : fr_conds fr = [] /\ fr_eq fr = [] /\ (fr_right fr = [] \/ bsrc upper_op f (fr_rexpr fr) (fr_ropen fr) (fr_rids fr) (fr_right fr))).
      { destruct R as [->|(T & X)]; [cbn; auto|]. unfold src in X. rewrite T in X. tauto. }
      destruct Z as (Z1 & Z2 & Z3). split; auto. split; auto. split; auto. right. destruct ids as [|i ids]; cbn [is_nil]; auto.
      destruct (B1 eq_refl) as (v & -> & V & o & X & Y). exists n, o. split; auto. split; auto. left. exists v. auto.
    + apply inv_set; auto. intros Hf. destruct (R Hf) as [X|[_ X]]; auto. rewrite X in L. discriminate.
  - destruct (fr_right fr) as [|x xs] eqn:L; cbn [is_nil].
    + apply inv_set; auto. intros Hf. specialize (R Hf). unfold src, set_right. cbn.
      assert (Z : fr_conds fr = [] /\ fr_eq fr = [] /\ (fr_left fr = [] \/ bsrc lower_op f (fr_lexpr fr) (fr_lopen fr) (fr_lids fr) (fr_left fr))).
      { destruct R as [->|(T & X)]; [cbn; auto|]. unfold src in X. rewrite T in X. tauto. }
      destruct Z as (Z1 & Z2 & Z3). split; auto. split; auto. split; auto. right. destruct ids as [|i ids]; cbn [is_nil]; auto.
      destruct (B1 eq_refl) as (v & -> & V & o & X & Y). exists n, o. split; auto. split; auto. left. exists v. auto.
    + apply inv_set; auto. intros Hf. destruct (R Hf) as [X|[_ X]]; auto. rewrite X in L. discriminate.
Qed.

Lemma cond_at n c : nth_error cs n = Some c -> cond_ok E c.
Proof. intros H. apply nth_error_In in H. rewrite Forall_forall in OK. auto. Qed.

Lemma hit_row_eq_inv n ids vs c : nth_error cs n = Some c -> c = CRow OEq ids (map Some vs) -> length ids = length vs ->
  forall fs ws k, skipn k ids = fs -> skipn k vs = ws -> forall m, inv m -> inv (hit_row_eq n ids fs ws m).
Proof.
  intros C -> LL. induction fs as [|f fs IH]; intros ws k Q1 Q2 m I; cbn; auto.
  destruct ws as [|v ws]; auto.
  assert (N1 : nth_error ids k = Some f).
  { rewrite <- (firstn_skipn k ids), Q1. rewrite nth_error_app2; rewrite firstn_length.
    - assert (k < length ids)%nat by (destruct (Nat.ltb_spec k (length ids)); auto; rewrite skipn_all2 in Q1 by lia; discriminate).
      replace (k - Nat.min k (length ids))%nat with 0%nat by lia. auto.
    - lia. }
  assert (N2 : nth_error vs k = Some v).
  { rewrite <- (firstn_skipn k vs), Q2. rewrite nth_error_app2; rewrite firstn_length.
    - assert (k < length vs)%nat by (destruct (Nat.ltb_spec k (length vs)); auto; rewrite skipn_all2 in Q2 by lia; discriminate).
      replace (k - Nat.min k (length vs))%nat with 0%nat by lia. auto.
    - lia. }
  assert (SK : forall (A : Type) (l : list A) x q, skipn k l = x :: q -> skipn (S k) l = q).
  { clear. induction k as [|k IH]; intros A [|y l] x q H; cbn in *; try discriminate; [congruence|]. eapply IH in H. destruct l; auto. }
  apply (IH ws (S k)); [eapply SK; eauto|eapply SK; eauto|].
  apply inv_set; auto. intros Hf. cbn [src row_eq fr_type]. unfold src. cbn [row_eq fr_type].
  assert (CD : add_cond n (fr_conds (fget m f)) = [n]).
  { destruct (fget_src m f I Hf) as [->|X]; [reflexivity|]. apply src_conds in X. destruct X as [->|(n' & c' & -> & X & Y)]; [reflexivity|].
    unfold add_cond. cbn. destruct (Nat.eqb_spec n n') as [->|NE]; [reflexivity|]. exfalso.
    apply (APART n n' _ _ f C X NE); cbn; auto. eapply nth_error_In; eauto. }
  exists n, (CRow OEq ids (map Some vs)), ids, [vs], k.
  cbn. split; auto. rewrite (proj2 (all_some_eq (map Some vs) vs) eq_refl). split; auto. split; auto.
  split; [f_equal; symmetry; apply nth_error_nth; auto|]. split; auto.
Qed.

Lemma hit_row_in_inv n ids kss : nth_error cs n = Some (CRowIn ids kss) -> somes (map all_some kss) <> [] ->
  forall fs k, skipn k ids = fs -> forall m, inv m -> inv (hit_row_in n ids fs k (somes (map all_some kss)) m).
Proof.
  intros C NE. set (rows := somes (map all_some kss)) in *. induction fs as [|f fs IH]; intros k Q m I; cbn; auto.
  assert (N1 : nth_error ids k = Some f).
  { rewrite <- (firstn_skipn k ids), Q. rewrite nth_error_app2; rewrite firstn_length.
    - assert (k < length ids)%nat by (destruct (Nat.ltb_spec k (length ids)); auto; rewrite skipn_all2 in Q by lia; discriminate).
      replace (k - Nat.min k (length ids))%nat with 0%nat by lia. auto.
    - lia. }
  apply IH.
  { clear - Q. revert ids Q. induction k as [|k IH]; intros [|y l] H; cbn in *; try discriminate; [congruence|]. apply IH in H. destruct l; auto. }
  destruct (negb _ && _) eqn:D; auto. apply inv_set; auto. intros Hf. unfold src. cbn [row_in fr_type].
  assert (G : fixsrc f (row_in n ids (map (fun l => nth k l (VNum 0)) rows) (fget m f))).
  { exists n, (CRowIn ids kss), ids, rows, k. cbn [row_in fr_eq fr_conds fr_row fr_lids fr_type rows_of is_rowc].
    repeat (split; [auto|]).
    destruct rows as [|a [|b q]]; [congruence|reflexivity|]. cbn. lia. }
  destruct (map _ rows) as [|a [|b q]]; auto.
Qed.

Lemma hit1_inv n c m m' : nth_error cs n = Some c -> inv m -> hit1 E n c m = Some m' -> inv m'.
Proof.
  intros C I. pose proof (cond_at n c C) as K. destruct c as [o f [v|]|f ks|o fs ks|fs kss|f [p|]|f h|h]; cbn [hit1].
  - intros [= <-]. destruct o; cbn in K; rewrite ?(cast_ok _ _ K); auto.
    + destruct (10 <? _)%nat; auto. apply inv_set; auto. intros Hf. unfold src. cbn.
      exists n, (CCmp OEq f (Some v)), [f], [[v]], 0%nat. cbn. repeat (split; [auto|]); auto. discriminate.
    + apply hit_bound_inv; auto; try discriminate.
      * intros _. exists n, OLt. split; auto. split; auto. left. exists v. auto.
      * intros _. exists v. split; auto. split; auto. exists OLt. auto.
    + apply hit_bound_inv; auto; try discriminate.
      * intros _. exists n, OLe. split; auto. split; auto. left. exists v. auto.
      * intros _. exists v. split; auto. split; auto. exists OLe. auto.
    + apply hit_bound_inv; auto; try discriminate.
      * intros _. exists n, OGt. split; auto. split; auto. left. exists v. auto.
      * intros _. exists v. split; auto. split; auto. exists OGt. auto.
    + apply hit_bound_inv; auto; try discriminate.
      * intros _. exists n, OGe. split; auto. split; auto. left. exists v. auto.
      * intros _. exists v. split; auto. split; auto. exists OGe. auto.
  - destruct (index_op o); [discriminate|intros [= <-]; auto].
  - assert (CV : map (cast (t_ f)) (somes ks) = somes ks).
    { cbn in K. rewrite <- (map_id (somes ks)) at 2. apply map_ext_in. intros v Hv. apply cast_ok. apply somes_in in Hv.
      rewrite Forall_forall in K. apply K in Hv. auto. }
    rewrite CV. destruct (somes ks) as [|v vs] eqn:S; [discriminate|]. rewrite <- S in *.
    destruct (negb _); [intros [= <-]; auto|]. destruct (9 <? _)%nat; [intros [= <-]; auto|]. intros [= <-].
    apply inv_set; auto. intros Hf. unfold src. cbn [eq_range fr_type].
    assert (G : fixsrc f (eq_range n (somes ks))).
    { exists n, (CIn f ks), [f], (map (fun v => [v]) (somes ks)), 0%nat. cbn [eq_range fr_eq fr_conds fr_row fr_lids fr_type rows_of is_rowc nth_error].
      rewrite map_map. cbn [nth]. rewrite map_id. do 6 (split; [auto|]). split; [discriminate|]. rewrite S.
      destruct vs; cbn; lia. }
    rewrite S. destruct vs; cbn; rewrite <- S; auto.
  - destruct (all_some ks) as [vs|] eqn:Q; [|destruct (index_op o); [discriminate|intros [= <-]; auto]].
    apply all_some_eq in Q. subst ks.
    assert (BS : forall o', o = o' -> o' <> OEq -> o' <> ONe -> exists f q, fs = f :: q /\ vs <> [] /\ q <> [] /\ Forall2 okv fs vs).
    { intros o' -> N1 N2. assert (K' : (2 <= length fs)%nat /\ Forall2 (const_ok E) fs (map Some vs)) by (destruct o'; cbn in K; tauto).
      destruct K' as [L F]. destruct fs as [|f [|g q]]; cbn in L; try lia. exists f, (g :: q). split; auto.
      split; [destruct vs; [inversion F|discriminate]|]. split; [discriminate|].
      revert F. generalize vs. generalize (f :: g :: q). clear. induction l as [|x l IH]; intros [|v vs] F; inversion F; subst; constructor; auto. }
    destruct o.
    + intros [= <-]. cbn in K. destruct K as (_ & _ & F). apply F2_len in F. rewrite map_length in F.
      eapply (hit_row_eq_inv n fs vs _ C eq_refl F fs vs 0); auto.
    + intros [= <-]. destruct fs; auto.
    + destruct (BS OLt) as (f & q & -> & NV & NQ & F); try discriminate; auto. intros [= <-]. destruct (negb _); auto.
      apply hit_bound_inv; auto; try discriminate. intros _. exists n, OLt. split; auto. split; auto. right. exists q. auto.
    + destruct (BS OLe) as (f & q & -> & NV & NQ & F); try discriminate; auto. intros [= <-]. destruct (negb _); auto.
      apply hit_bound_inv; auto; try discriminate. intros _. exists n, OLe. split; auto. split; auto. right. exists q. auto.
    + destruct (BS OGt) as (f & q & -> & NV & NQ & F); try discriminate; auto. intros [= <-]. destruct (negb _); auto.
      apply hit_bound_inv; auto; try discriminate. intros _. exists n, OGt. split; auto. split; auto. right. exists q. auto.
    + destruct (BS OGe) as (f & q & -> & NV & NQ & F); try discriminate; auto. intros [= <-]. destruct (negb _); auto.
      apply hit_bound_inv; auto; try discriminate. intros _. exists n, OGe. split; auto. split; auto. right. exists q. auto.
  - destruct (somes (map all_some kss)) as [|w ws] eqn:S; [discriminate|]. rewrite <- S. intros [= <-].
    apply (hit_row_in_inv n fs kss C); auto. congruence.
  - intros [= <-]. destruct (weight _ <? weight _)%nat; auto. apply inv_set; auto. intros Hf. unfold src.
    destruct (index_for_like p) as [s|s|] eqn:Q; cbn [fr_type].
    + exists n, (CLike f (Some p)), [f], [[VStr s]], 0%nat. cbn. rewrite Q. repeat (split; [auto|]); auto. discriminate.
    + exists n, p, s. cbn. auto.
    + exists n, p. cbn. auto.
  - intros X; discriminate X.
  - intros [= <-]. apply inv_set; [auto|]. intros Hf. destruct (K Hf).
  - intros [= <-]. auto.
Qed.

Lemma hit_all_inv : forall q pre m m', cs = pre ++ q -> inv m -> hit_all E (length pre) q m = Some m' -> inv m'.
Proof.
  induction q as [|c q IH]; intros pre m m' S I; cbn; [intros [= <-]; auto|].
  destruct (hit1 E (length pre) c m) as [m1|] eqn:Q; [|discriminate]. intros H.
  apply (IH (pre ++ [c]) m1); [rewrite <- app_assoc; auto| |rewrite app_length; cbn; rewrite Nat.add_1_r; auto].
  eapply hit1_inv; [|eauto|eauto]. rewrite S, nth_error_app2 by lia. rewrite Nat.sub_diag. auto.
Qed.

(* a condition that ends the planning is TRUE for no row *)
Lemma hit1_none n c m r : cond_ok E c -> hit1 E n c m = None -> holds E r c = false.
Proof.
  destruct c as [o f [v|]|f ks|o fs ks|fs kss|f [p|]|f h|h]; cbn [hit1]; try discriminate.
  - intros _ _. cbn. unfold cmp_true. destruct (r f); auto.
  - intros K. assert (CV : map (cast (t_ f)) (somes ks) = somes ks).
    { cbn in K. rewrite <- (map_id (somes ks)) at 2. apply map_ext_in. intros v Hv. apply cast_ok. apply somes_in in Hv.
      rewrite Forall_forall in K. apply K in Hv. auto. }
    rewrite CV. destruct (somes ks) as [|v vs] eqn:S; [|discriminate]. intros _.
    destruct (holds E r (CIn f ks)) eqn:H; auto. apply (rows_hold _ [f] (map (fun v => [v]) (somes ks))) in H; auto.
    rewrite S in H. destruct H as (vs & [] & _).
  - destruct (all_some ks) as [vs|] eqn:Q; [discriminate|]. apply all_some_none in Q. destruct o; cbn [index_op]; try discriminate; intros K _; cbn in K.
    + cbn. destruct K as (_ & _ & F). apply F2_len in F. apply row_equal_none; auto.
    + tauto. + tauto. + tauto. + tauto.
  - intros K. destruct (somes (map all_some kss)) as [|w ws] eqn:S; [|discriminate]. intros _.
    destruct (holds E r (CRowIn fs kss)) eqn:H; auto. apply (rows_hold _ fs (somes (map all_some kss))) in H; auto.
    rewrite S in H. destruct H as (vs & [] & _).
  - auto.
Qed.
Lemma hit_all_none : forall q n m r, Forall (cond_ok E) q -> hit_all E n q m = None -> selected E q r = false.
Proof.
  unfold selected. induction q as [|c q IH]; intros n m r K; cbn; [discriminate|]. inversion K; subst.
  destruct (hit1 E n c m) as [m1|] eqn:Q.
  - intros X. rewrite (IH _ _ r H2 X). apply andb_false_r.
  - intros _. rewrite (hit1_none n c m r); auto.
Qed.
End Hit.
