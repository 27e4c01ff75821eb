(* Proofs: the plan of a query with window functions. *)
From Coq Require Import List ZArith Bool Lia Sorting.Sorted.
From Verif Require Import Common.Bytes Key.Model Key.Spec Agg.Model Agg.Spec Agg.Lists Agg.Group Agg.Top.
From Verif Require Import Window.Model Window.Spec Window.Fn Window.Order Window.Rank Window.Run Window.Node Window.Loop.
Import ListNotations.
Local Open Scope Z_scope.

Lemma oc_app k1 k2 a b : order_compare (k1 ++ k2) a b = match order_compare k1 a b with Eq => order_compare k2 a b | c => c end.
Proof.
  induction k1 as [|((t, e), asc) k1 IH]; [reflexivity|]. cbn [app order_compare].
  destruct (column_compare t asc (e a) (e b)); auto.
Qed.
Definition asc_keys (gs : groups) : okeys := map (fun g => (fst g, snd g, true)) gs.
Lemma oc_same gs a b : order_compare (asc_keys gs) a b = Eq <-> same_group gs a b = true.
Proof.
  induction gs as [|(t, e) gs IH]; [split; reflexivity|]. cbn [asc_keys map order_compare same_group forallb fst snd].
  fold (asc_keys gs). fold (same_group gs a b). unfold column_compare, same_column.
  destruct (e a) as [v|], (e b) as [u|]; cbn; try (split; discriminate); try exact IH.
  destruct (value_compare t v u); cbn; [exact IH| |]; split; discriminate.
Qed.

Section Table.
Variable s : wspec.
Variable rows : list row.
Hypothesis So : StronglySorted (fun a b => order_compare (sort_keys s) a b <> Gt) rows.
Notation gs := (s_part s).

Lemma so_pair a x b y c : rows = a ++ x :: b ++ y :: c -> order_compare (sort_keys s) x y <> Gt.
Proof.
  intros E. pose proof So as K. rewrite E in K. clear E.
  induction a as [|z a IH]; cbn [app] in K; apply StronglySorted_inv in K; destruct K as (K1 & K2).
  - rewrite Forall_forall in K2. apply K2. apply in_app_iff. right. now left.
  - apply IH. exact K1.
Qed.
Lemma so_part x y : order_compare (sort_keys s) x y <> Gt -> order_compare (asc_keys gs) x y <> Gt.
Proof. unfold sort_keys. fold (asc_keys gs). rewrite oc_app. destruct (order_compare (asc_keys gs) x y); congruence. Qed.
Lemma sorted_together : together gs rows.
Proof.
  intros a x b y c E Sx z Hz. apply in_split in Hz. destruct Hz as (b1 & b2 & ->).
  assert (order_compare (asc_keys gs) x z <> Gt) as K1.
  { apply so_part. apply (so_pair a x b1 z (b2 ++ y :: c)). rewrite E. now rewrite <- app_assoc. }
  assert (order_compare (asc_keys gs) z y <> Gt) as K2.
  { apply so_part. apply (so_pair (a ++ x :: b1) z b2 y c). rewrite E. now rewrite <- !app_assoc. }
  apply oc_same in Sx. rewrite (oc_anti _ y z) in K2. 
  assert (order_compare (asc_keys gs) y z = order_compare (asc_keys gs) x z) as X by (symmetry; apply oc_eq_l; exact Sx).
  rewrite X in K2. apply oc_same. destruct (order_compare (asc_keys gs) x z); cbn in K2; congruence.
Qed.
Lemma sorted_sub (R : row -> row -> Prop) l1 l2 l3 : StronglySorted R (l1 ++ l2 ++ l3) -> StronglySorted R l2.
Proof.
  induction l1 as [|x l1 IH]; cbn [app]; intros K; [|apply IH; now apply StronglySorted_inv in K].
  induction l2 as [|x l2 IH]; [constructor|]. cbn [app] in K. apply StronglySorted_inv in K. destruct K as (K1 & K2).
  constructor; [apply IH; exact K1|]. now apply Forall_app in K2.
Qed.
Lemma run_in_order p : In p (runs gs rows) -> in_order (s_order s) p.
Proof.
  intros Hp. destruct (runs_partitions gs rows sorted_together) as (Ec & _ & Ef). rewrite Forall_forall in Ef.
  assert (exists l1 l3, rows = l1 ++ p ++ l3) as (l1 & l3 & E).
  { apply in_split in Hp. destruct Hp as (q1 & q2 & Eq). exists (concat q1), (concat q2). rewrite Eq, concat_app in Ec. symmetry. exact Ec. }
  pose proof So as K. rewrite E in K. apply sorted_sub in K.
  assert (allsame gs p) as A.
  { intros x y Hx Hy. pose proof (Ef p Hp x Hx) as Ep. rewrite Ep in Hy. now apply filter_In in Hy. }
  clear - K A. induction K as [|x l K IH F]; [constructor|]. constructor.
  - apply IH. intros y z Hy Hz. apply A; now right.
  - rewrite Forall_forall in *. intros y Hy. specialize (F y Hy). unfold sort_keys in F. fold (asc_keys gs) in F. rewrite oc_app in F.
    rewrite (proj2 (oc_same gs x y)) in F; [exact F|]. apply A; [now left|now right].
Qed.
End Table.

Lemma merged_frame s f fs m : coherent s (f :: fs) -> forallb (fun f => check_valid f s) (f :: fs) = true ->
  mode_of (plan_frame f s) = Some m -> forall g, In g (f :: fs) -> check_valid g s = true /\ own_frame s g m.
Proof.
  intros C V M g Hg. rewrite forallb_forall in V. pose proof (V g Hg) as Vg. split; [exact Vg|].
  pose proof (V f (or_introl eq_refl)) as Vf.
  assert (rank_like g = true -> s_frame s = None) as Rg.
  { intros R. unfold check_valid in Vg. destruct (s_frame s) as [((ft, a), b)|]; [|reflexivity]. rewrite R in Vg. cbn in Vg. now rewrite andb_false_r in Vg. }
  unfold plan_frame in M. destruct (rank_like f) eqn:Rf.
  - injection M as <-. destruct (rank_like g) eqn:R; [left; auto|right]. split; [exact R|].
    destruct C as [C|[C|C]]; [congruence|rewrite (C g Hg) in R; discriminate|].
    unfold sql_frame. unfold check_valid in Vg. rewrite C in *. destruct (s_frame s) as [((ft, a), b)|]; [discriminate|]. reflexivity.
  - assert (mode_of (Some (sql_frame s)) = Some m) as M'.
    { unfold sql_frame. destruct (s_frame s); exact M. }
    destruct (rank_like g) eqn:R; [left|right]; auto.
Qed.

Definition answers (s : wspec) (m : mode) (fs : list wfn) (rows : list row) : list orow := flat_map (ans s m fs) (runs (s_part s) rows).
Theorem node_ok s fs w0 l child caps :
  merge_window_node s fs = Some [w0] -> coherent s fs -> feed child ->
  StronglySorted (fun a b => order_compare (sort_keys s) a b <> Gt) (fed child) -> small_table s fs (fed child) ->
  windows_ok s fs (fed child) (answers s (w_mode w0) fs (fed child)) /\
  exists d fin, drain (with_limit l w0) caps (wopen (with_limit l w0) child) [] = Some (d, fin) /\
    (let out := match l with None => answers s (w_mode w0) fs (fed child) | Some n => firstn (Z.to_nat n) (answers s (w_mode w0) fs (fed child)) end in
     (if fin then d = out else exists more, out = d ++ more) /\
     (Forall (fun c => (0 < c)%nat) caps -> (length out < length caps)%nat -> fin = true)).
Proof.
  intros M Co Fd So (Gr & Sm). unfold merge_window_node in M. destruct fs as [|f fs]; [destruct Co|].
  destruct (forallb (fun f => check_valid f s) (f :: fs)) eqn:V; [|discriminate].
  destruct (mode_of (plan_frame f s)) as [m|] eqn:Em; [|discriminate]. cbn [option_map] in M. injection M as <-. cbn [w_mode].
  pose proof (merged_frame s f fs m Co V Em) as Own. set (fs' := f :: fs) in *.
  pose proof (sorted_together s (fed child) So) as T.
  pose proof (runs_partitions (s_part s) (fed child) T) as P.
  set (Good := fun p => in_order (s_order s) p /\ p <> [] /\ size p < 2 ^ 31 /\ small_frame s p /\ forall g, In g fs' -> small_fn g p).
  assert (Forall Good (runs (s_part s) (fed child))) as Gd.
  { apply Forall_forall. intros p Hp. destruct P as (P1 & P2 & P3). rewrite Forall_forall in P2, P3.
    split; [apply (run_in_order s (fed child) So p Hp)|]. split; [now apply P2|].
    assert (exists r, In r p) as (r & Hr) by (specialize (P2 p Hp); destruct p; [congruence|]; eexists; now left).
    assert (In r (fed child)) as Hr' by (rewrite <- P1; apply in_concat; eauto).
    specialize (Sm r Hr'). cbv zeta in Sm. rewrite <- (P3 p Hp r Hr) in Sm. unfold size. exact Sm. }
  assert (forall p, Good p -> partition_ok s fs' p (ans s m fs' p) /\
    forall is, Forall2 shaped fs' is -> exists is', process_one_partition (s_order s) m fs' is p = Some (is', ans s m fs' p) /\ Forall2 shaped fs' is') as Hp.
  { intros p (G1 & G2 & G3 & G4 & G5). apply process_ok; try assumption. intros g Hg. destruct (Own g Hg). auto. }
  split.
  - exists (runs (s_part s) (fed child)), (map (ans s m fs') (runs (s_part s) (fed child))). split; [exact P|]. split.
    + clear - Gd Hp. induction (runs (s_part s) (fed child)) as [|p l IH]; [constructor|]. inversion Gd; subst. cbn. constructor; [now apply Hp|now apply IH].
    + unfold answers. apply flat_map_concat_map.
  - set (w := with_limit l _). 
    assert (inv w Good (wopen w child)) as I0.
    { constructor; unfold wopen; cbn [ws_eos ws_child ws_fns]; try discriminate.
      - intros _. exact Fd.
      - unfold w, with_limit. cbn [w_fns]. clear. induction fs' as [|g q IH]; constructor; [apply shaped_init|exact IH].
      - unfold left_rows, pending, has_cache. cbn. exact Gr.
      - unfold left_rows, pending, has_cache. cbn. exact T.
      - unfold left_rows, pending, has_cache. cbn. exact Gd. }
    assert (coming w (ans s m fs') (wopen w child) = match l with None => answers s m fs' (fed child) | Some n => firstn (Z.to_nat n) (answers s m fs' (fed child)) end) as Ecm.
    { unfold coming, limited, left_rows, pending, has_cache, wopen. cbn [ws_next ws_offs ws_eos ws_child ws_returned length Nat.ltb Nat.leb app].
      unfold w, with_limit. cbn [w_limit w_part]. destruct l; [rewrite Z.sub_0_r|]; reflexivity. }
    destruct (drain_ok w (ans s m fs') Good (fun p G => proj2 (Hp p G)) caps (wopen w child) [] I0) as (d & fin & D & K1 & K2).
    rewrite Ecm in K1, K2. exists d, fin. split; [exact D|]. cbv zeta. split; [destruct fin; [now symmetry|exact K1]|exact K2].
Qed.
