(* Taking the conditions on the outer query out of an aggregation. *)
From Coq Require Import List ZArith Bool Arith Lia Sorting.Permutation.
From Verif Require Import Common.Bytes Common.KV Key.Model Key.Spec Key.ProofsKey Join.Model Join.Spec Join.Keys Join.Rows.
From Verif Require Import Subquery.Spec Subquery.Model Subquery.Proofs Subquery.ApplyModel Subquery.ApplySpec Subquery.ApplyNode Subquery.ApplyTop Subquery.AggModel Subquery.AggSpec.
Import ListNotations.

Lemma ovalue_eqb_eq v w : ovalue_eqb v w = true <-> v = w.
Proof. destruct v, w; cbn; rewrite ?veqb_eq; split; congruence. Qed.
Lemma keys_eqb_eq : forall a b, keys_eqb a b = true <-> a = b.
Proof.
  induction a as [|v p IH]; intros [|w q]; cbn; split; try congruence.
  - intros E. apply andb_true_iff in E as [E1 E2]. apply ovalue_eqb_eq in E1. apply IH in E2. congruence.
  - intros [= -> ->]. apply andb_true_iff. split; [now apply ovalue_eqb_eq|now apply IH].
Qed.

Lemma firsts_in ks : forall rows seen r, In r (firsts ks seen rows) -> In r rows.
Proof.
  induction rows as [|r q IH]; cbn; intros seen r' X; [contradiction|]. destruct (existsb _ seen); [right; eauto|]. destruct X as [->|X]; [now left|right; eauto].
Qed.
Lemma firsts_all ks : forall rows seen r, In r rows -> In (key_values ks r) seen \/ exists r', In r' (firsts ks seen rows) /\ key_values ks r' = key_values ks r.
Proof.
  induction rows as [|r q IH]; cbn; intros seen r' [].
  - subst r'. destruct (existsb _ seen) eqn:E.
    + left. apply existsb_exists in E as (k & Hk & E). apply keys_eqb_eq in E. now rewrite E.
    + right. exists r. split; [now left|reflexivity].
  - destruct (existsb _ seen) eqn:E.
    + destruct (IH seen r' H) as [X|(r2 & X & Y)]; eauto.
    + destruct (IH (key_values ks r :: seen) r' H) as [[X|X]|(r2 & X & Y)]; [|auto|].
      * right. exists r. split; [now left|exact X].
      * right. exists r2. split; [now right|exact Y].
Qed.

Lemma group_row_agg n a r v : (a < n)%nat -> get_value (group_row n a r v) a 0 = v.
Proof. intros Lt. unfold get_value, group_row. rewrite nth_seq_map. destruct (Nat.ltb_spec a n); [|lia]. now rewrite Nat.eqb_refl. Qed.
Lemma group_row_other n a r v t k : (t < n)%nat -> t <> a -> get_value (group_row n a r v) t k = get_value r t k.
Proof. intros Lt Ne. unfold get_value, group_row. rewrite nth_seq_map. destruct (Nat.ltb_spec t n); [|lia]. destruct (Nat.eqb_spec t a); [contradiction|reflexivity]. Qed.

Section Split.
Variables (n a : nat) (L R : list nat) (f : list (option value) -> option value) (e : row -> option value) (moved : list jcond) (rows : list row).
Hypothesis Apart : forall t, In t L -> ~ In t R.
Hypothesis Small : forall t, In t L \/ In t R -> (t < n)%nat.
Hypothesis InA : In a R.
Hypothesis Keys : Forall (sets_key n a L R) moved.

Lemma a_small : (a < n)%nat. Proof. apply Small. auto. Qed.
(* a condition on the outer row and a column *)
Lemma key_holds c : In c moved -> exists s y, eq_inner_slots R c = [s] /\ s_tuple s <> a /\
  (forall o i, holds (glue n L R o i) c <-> equal_values (type_of y) (s_type s) (side (alone n L o) y) (col i s)) /\ exact_type (s_type s) /\ (ctype_eqb (type_of y) (s_type s) = true -> exact_type (type_of y)).
Proof.
  intros Hc. pose proof Keys as K0. rewrite Forall_forall in K0. destruct (K0 c Hc) as (s & y & Cs & Rs & Na & Ry & Ni & Ex).
  exists s, y. assert (G : forall o i, side (glue n L R o i) (OSlot s) = col i s).
  { intros o i. cbn. apply glue_r; [intros X; exact (Apart _ X Rs)|exact Rs|apply Small; auto]. }
  assert (M : mem (s_tuple s) R = true) by (unfold mem; apply existsb_exists; exists (s_tuple s); split; [exact Rs|apply Nat.eqb_refl]).
  assert (My : inner_slot R y = []).
  { destruct y as [u|]; [|reflexivity]. cbn. destruct (mem (s_tuple u) R) eqn:E; [|reflexivity]. exfalso. apply (Ni u eq_refl).
    unfold mem in E. apply existsb_exists in E as (z & Hz & Ez). apply Nat.eqb_eq in Ez. now subst z. }
  split; [destruct Cs as [->| ->]; cbn [eq_inner_slots]; rewrite My; cbn [inner_slot]; rewrite M; reflexivity|].
  split; [exact Na|]. split; [|split; [exact Ex|intros T; apply ctype_eqb_eq in T; now rewrite T]].
  intros o i. destruct Cs as [->| ->]; cbn [holds]; rewrite G, Ry; [reflexivity|].
  split; apply equal_values_sym.
Qed.
Lemma exact_eq t v w : exact_type t -> value_compare t v w = Eq -> v = w.
Proof.
  unfold exact_type. intros [N1 N2]. destruct t; try contradiction; destruct v as [z|z], w as [z'|z']; cbn; try discriminate; intros E;
    first [apply Z.compare_eq_iff in E; now subst | apply bcompare_eq in E; now subst].
Qed.
Lemma equal_unique ta tb x v w : exact_type tb -> (ctype_eqb ta tb = true -> exact_type ta) -> equal_values ta tb x v -> equal_values ta tb x w -> v = w.
Proof.
  intros Eb Ea (v1 & w1 & E1 & E2 & X) (v2 & w2 & E3 & E4 & Y). subst. injection E3 as <-.
  destruct (ctype_eqb ta tb); [|congruence]. apply exact_eq in X; auto. apply exact_eq in Y; auto. congruence.
Qed.

Notation ks := (group_slots R moved).
Notation where_ o i := (Forall (holds (glue n L R o i)) moved).
(* rows that go with the outer row have the same keys, and rows with these keys go with it *)
Lemma same_keys o i j : where_ o i -> (where_ o j <-> key_values ks i = key_values ks j).
Proof.
  intros Wi. rewrite Forall_forall in Wi. rewrite Forall_forall. unfold key_values, group_slots. split.
  - intros Wj. apply map_ext_in. intros s Hs. apply in_flat_map in Hs as (c & Hc & Hs).
    destruct (key_holds c Hc) as (s' & y & E & _ & Hold & X1 & X2). rewrite E in Hs. destruct Hs as [<-|[]].
    eapply equal_unique; [exact X1|exact X2|apply Hold, Wi, Hc|apply Hold, Wj, Hc].
  - intros E c Hc. destruct (key_holds c Hc) as (s & y & Es & _ & Hold & _ & _). apply Hold.
    assert (X : col i s = col j s).
    { apply (ext_in_map E). apply in_flat_map. exists c. split; [exact Hc|]. rewrite Es. now left. }
    rewrite <- X. apply Hold, Wi, Hc.
Qed.
Lemma where_group o r v : where_ o (group_row n a r v) <-> where_ o r.
Proof.
  rewrite !Forall_forall. split; intros K c Hc; specialize (K c Hc); destruct (key_holds c Hc) as (s & y & Es & Na & Hold & _ & _); apply Hold; apply Hold in K.
  - unfold col in *. rewrite group_row_other in K; auto.
    enough (In (s_tuple s) R) by (apply Small; auto). assert (X : In s (eq_inner_slots R c)) by (rewrite Es; now left). clear -X.
    destruct c as [p q|ps|g]; cbn in X; [|apply in_flat_map in X as (pr & _ & X)|contradiction]; apply in_app_iff in X as [X|X];
      unfold inner_slot in X; match type of X with In _ (match ?o with _ => _ end) => destruct o as [u|] end; try contradiction;
      destruct (mem (s_tuple u) R) eqn:E; try contradiction; destruct X as [->|[]]; unfold mem in E; apply existsb_exists in E as (z & Hz & Ez); apply Nat.eqb_eq in Ez; now subst z.
  - unfold col in *. rewrite group_row_other; auto.
    enough (In (s_tuple s) R) by (apply Small; auto). assert (X : In s (eq_inner_slots R c)) by (rewrite Es; now left). clear -X.
    destruct c as [p q|ps|g]; cbn in X; [|apply in_flat_map in X as (pr & _ & X)|contradiction]; apply in_app_iff in X as [X|X];
      unfold inner_slot in X; match type of X with In _ (match ?o with _ => _ end) => destruct o as [u|] end; try contradiction;
      destruct (mem (s_tuple u) R) eqn:E; try contradiction; destruct X as [->|[]]; unfold mem in E; apply existsb_exists in E as (z & Hz & Ez); apply Nat.eqb_eq in Ez; now subst z.
Qed.

Variables (cond on : row -> bool) (op : cop) (x : operand) (t : coltype).
Hypothesis Cond : decides cond moved.
Hypothesis Rx : reads_outer n L R x.
Hypothesis Tx : type_of x = t.

Lemma agg_side o g v : side (glue n L R o (group_row n a g v)) (agg_operand t a) = v.
Proof.
  unfold agg_operand. cbn. rewrite glue_r; [|intros X; exact (Apart _ X InA)|exact InA|exact a_small]. apply group_row_agg. exact a_small.
Qed.
Lemma keys_nonempty : moved <> [] -> ks <> [].
Proof.
  intros N E. assert (M : exists c, In c moved) by (destruct moved as [|c q]; [contradiction|exists c; now left]). destruct M as (c & Hc).
  destruct (key_holds c Hc) as (s & y & Es & _). assert (X : In s ks) by (apply in_flat_map; exists c; split; [exact Hc|rewrite Es; now left]). now rewrite E in X.
Qed.
Lemma split_partner o : f [] = None -> moved <> [] -> decides on (agg_conds true op x t a moved) ->
  has_partner n L R on (fun _ => aggregated n a f e ks rows) o = is_true (compare3 (value_compare t) op (side (alone n L o) x) (f (agg_values n L R cond e rows o))).
Proof.
  intros Fn Nm On. apply Bool.eq_iff_eq_true. rewrite is_true_iff. unfold has_partner. rewrite existsb_exists.
  unfold aggregated. destruct ks as [|k0 kq] eqn:EK; [exfalso; exact (keys_nonempty Nm EK)|]. rewrite <- EK.
  assert (G : forall r, In r rows -> where_ o r ->
    filter (fun i => keys_eqb (key_values ks r) (key_values ks i)) rows = filter (fun i => cond (glue n L R o i)) rows).
  { intros r Hr Wr. apply filter_ext. intros i. apply Bool.eq_iff_eq_true. rewrite keys_eqb_eq, (Cond _). symmetry. now apply same_keys. }
  assert (Te : type_of (agg_operand t a) = t) by reflexivity.
  split.
  - intros (g & Hg & Og). apply in_map_iff in Hg as (r & <- & Hr). apply firsts_in in Hr. apply On in Og. inversion Og as [|c q O1 O2]. subst c q.
    apply where_group in O2. apply compare_cond_holds with (t := t) in O1; auto. rewrite agg_side, Rx in O1. rewrite (G r Hr O2) in O1. exact O1.
  - intros E. unfold agg_values in E.
    destruct (filter (fun i => cond (glue n L R o i)) rows) as [|i q] eqn:EF.
    { cbn in E. rewrite Fn in E. destruct (side (alone n L o) x); discriminate. }
    assert (Hi : In i (filter (fun i => cond (glue n L R o i)) rows)) by (rewrite EF; now left). apply filter_In in Hi as [Hi Ci]. apply Cond in Ci.
    destruct (firsts_all ks rows [] i Hi) as [[]|(r & Hr & Er)].
    assert (Wr : where_ o r) by (apply (same_keys o i r Ci); auto).
    eexists. split; [apply in_map_iff; exists r; split; [reflexivity|exact Hr]|]. apply On. constructor; [|now apply where_group].
    apply compare_cond_holds with (t := t); auto. rewrite agg_side, Rx, (G r (firsts_in _ _ _ _ Hr) Wr). exact E.
Qed.
Lemma whole_partner o : decides on (agg_conds false op x t a moved) ->
  has_partner n L R on (agg_rows false n a L R f e moved rows) o = is_true (compare3 (value_compare t) op (side (alone n L o) x) (f (agg_values n L R cond e rows o))).
Proof.
  intros On. apply Bool.eq_iff_eq_true. rewrite is_true_iff. unfold has_partner, agg_rows, aggregated. cbn [existsb].
  rewrite orb_false_r, (On _). unfold agg_conds. rewrite Forall_cons_iff. rewrite (compare_cond_holds op x (agg_operand t a) t) by auto. rewrite agg_side, Rx.
  assert (E : filter (fun i => is_satisfy_filter moved (result_row n L R o i)) rows = filter (fun i => cond (glue n L R o i)) rows).
  { apply filter_ext. intros i. apply Bool.eq_iff_eq_true. rewrite filter_spec, result_row_glue by exact Apart. symmetry. apply Cond. }
  rewrite E. unfold agg_values. split; [tauto|]. intros X. split; [exact X|constructor].
Qed.
End Split.

(* the node *)
Theorem agg_top A (split : bool) op x t a f e moved in_eq cond rows outer src caps :
  ap_type A = ASemi -> ap_conds A = agg_conds split op x t a moved -> ap_one_row A = false ->
  inputs_ok (hashes A) in_eq (ap_size A) (ap_outer A) (ap_inner A) (ap_conds A) (agg_rows split (ap_size A) a (ap_outer A) (ap_inner A) f e moved rows)
    (aggregated (ap_size A) a f e (group_slots (ap_inner A) moved) rows) outer ->
  supplies in_eq A (agg_rows split (ap_size A) a (ap_outer A) (ap_inner A) f e moved rows)
    (aggregated (ap_size A) a f e (group_slots (ap_inner A) moved) rows) outer src -> parent_ok A ->
  decides cond moved -> reads_outer (ap_size A) (ap_outer A) (ap_inner A) x -> type_of x = t -> In a (ap_inner A) ->
  (split = true -> f [] = None /\ moved <> [] /\ Forall (sets_key (ap_size A) a (ap_outer A) (ap_inner A)) moved) ->
  enough caps (2 * length outer) ->
  exists out, arun A src outer caps = Rows out /\
    up_to (ap_limit A) (outer_columns (ap_size A) (ap_outer A) out)
      (outer_columns (ap_size A) (ap_outer A) (filter (fun o => is_true (compare3 (value_compare t) op (side (alone (ap_size A) (ap_outer A) o) x)
         (f (agg_values (ap_size A) (ap_outer A) (ap_inner A) cond e rows o)))) outer)).
Proof.
  intros J Cs One Ok Sup Par Cond Rx Tx Ia Sp En.
  set (on := is_satisfy_filter (ap_conds A)).
  assert (On : decides on (ap_conds A)) by (intros r; apply filter_spec).
  pose proof (semi_top A in_eq on _ _ outer src Ok On Sup Par caps J) as X. pose proof Ok as [Apart Small _ _].
  destruct (arun A src outer caps) as [out| |]; [|congruence|contradiction].
  exists out. split; [reflexivity|]. unfold semi in X. rewrite Cs in On.
  erewrite filter_ext_in'; [exact X|]. intros o _. symmetry. destruct split.
  - destruct (Sp eq_refl) as (Fn & Nm & Ks). unfold agg_rows. eapply split_partner; eauto.
  - eapply whole_partner; eauto.
Qed.

Theorem agg_list_top A a f e moved in_eq cond rows outer src caps :
  ap_type A = ALeft -> ap_conds A = [] ->
  inputs_ok false in_eq (ap_size A) (ap_outer A) (ap_inner A) [] (agg_rows false (ap_size A) a (ap_outer A) (ap_inner A) f e moved rows) [] outer ->
  supplies in_eq A (agg_rows false (ap_size A) a (ap_outer A) (ap_inner A) f e moved rows) [] outer src -> parent_ok A ->
  (forall o, (length (src_row src o) <= 1)%nat) -> decides cond moved -> In a (ap_inner A) ->
  enough caps (3 * length outer) ->
  exists out rest, arun A src outer caps = Rows out /\
    Permutation (map (fun r => (alone (ap_size A) (ap_outer A) r, get_value r a 0)) out ++ rest)
      (map (fun o => (alone (ap_size A) (ap_outer A) o, f (agg_values (ap_size A) (ap_outer A) (ap_inner A) cond e rows o))) outer) /\
    (rest = [] \/ exists k, ap_limit A = Some k /\ (k <= length out)%nat).
Proof.
  intros J Cs Ok Sup Par One Cond Ia En. set (n := ap_size A) in *. set (L := ap_outer A) in *. set (R := ap_inner A) in *.
  assert (HA : hashes A = false) by (unfold hashes, apairs, pairs_of; rewrite Cs; reflexivity).
  assert (On : decides (fun _ => true) (ap_conds A)) by (intros r; rewrite Cs; split; auto).
  assert (Ok' : inputs_ok (hashes A) in_eq (ap_size A) (ap_outer A) (ap_inner A) (ap_conds A) (agg_rows false n a L R f e moved rows) [] outer).
  { rewrite HA, Cs. exact Ok. }
  pose proof (apply_run A in_eq (fun _ => true) _ _ outer src Ok' On Sup Par caps) as X.
  specialize (X ltac:(unfold left_ok; intros _; split; [auto|congruence])). pose proof Ok as [Apart Small _ _].
  assert (P : flat_map (result A (fun _ => true) (agg_rows false n a L R f e moved rows)) outer =
              map (fun o => glue n L R o (hd [] (agg_rows false n a L R f e moved rows o))) outer).
  { clear -J. induction outer as [|o q IH]; [reflexivity|]. cbn [flat_map map]. rewrite IH. unfold result. rewrite J. reflexivity. }
  destruct (arun A src outer caps) as [out| |].
  - destruct X as [(rest & Pm & Q) _]. unfold shown in Pm. rewrite J, P in Pm. exists out, (map (fun r => (alone n L r, get_value r a 0)) rest).
    split; [reflexivity|]. split; [|destruct Q as [->|Q]; [now left|right; exact Q]].
    rewrite <- map_app. apply Permutation_trans with (map (fun r => (alone n L r, get_value r a 0)) (map (fun o => glue n L R o (hd [] (agg_rows false n a L R f e moved rows o))) outer)).
    + now apply Permutation_map.
    + rewrite map_map. erewrite map_ext; [reflexivity|]. intros o. cbn. rewrite alone_glue. f_equal.
      rewrite glue_r; [|intros Z; exact (Apart _ Z Ia)|exact Ia|apply Small; auto]. rewrite group_row_agg by (apply Small; auto). f_equal. unfold agg_values. f_equal.
      apply filter_ext. intros i. apply Bool.eq_iff_eq_true. rewrite filter_spec, result_row_glue by exact Apart. symmetry. apply Cond.
  - destruct X as (_ & o & _ & O1 & O2). specialize (One o). lia.
  - exfalso. apply X. eapply enough_mono; [|exact En]. rewrite P, map_length. lia.
Qed.
