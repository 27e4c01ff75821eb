(* The subscriber delivers what the regions' streams say. *)
From Coq Require Import List ZArith Bool Lia Sorting.Sorted.
From Verif Require Import Binlog.Spec Binlog.CaptureSpec Binlog.Model Binlog.Maps Binlog.Read Binlog.Capture.
Import ListNotations.
Open Scope Z_scope.

Lemma increasing_sorted r : increasing r -> StronglySorted Z.lt (map fst r).
Proof.
  intros Hi. apply Sorted_StronglySorted; [intros a b c; apply Z.lt_trans|].
  induction r as [|a r IH]; cbn; constructor.
  - apply IH. intros r1 x y r2 E. apply (Hi (a :: r1) x y r2). cbn. now rewrite E.
  - destruct r as [|b r]; cbn; constructor. apply (Hi [] a b r). reflexivity.
Qed.

Lemma sorted_incr r : StronglySorted Z.lt (map fst r) -> increasing r.
Proof. intros Hs. apply (sorted_increasing r []). now rewrite app_nil_r. Qed.

Lemma put_last (m : list item) k v : (forall x, In x (keys m) -> x < k) -> put k v m = m ++ [(k, v)].
Proof.
  induction m as [|[a b] m IH]; intros Hm; auto. cbn. assert (a < k) by (apply Hm; cbn; auto).
  replace (k <? a) with false by (symmetry; apply Z.ltb_ge; lia). replace (k =? a) with false by (symmetry; apply Z.eqb_neq; lia).
  f_equal. apply IH. intros x Hx. apply Hm. cbn. auto.
Qed.

Lemma put_all_app (r : list item) : forall m, StronglySorted Z.lt (map fst (m ++ r)) ->
  fold_left (fun m e => put (fst e) (snd e) m) r m = m ++ r.
Proof.
  induction r as [|[k v] r IH]; intros m Hs; cbn; [now rewrite app_nil_r|].
  rewrite put_last.
  - rewrite IH; [now rewrite <- app_assoc|]. now rewrite <- app_assoc.
  - intros x Hx. rewrite map_app in Hs. apply (sorted_app_in _ _ _ _ Hs); auto. cbn. auto.
Qed.

Lemma last_ts_app d r1 r2 : last_ts d (r1 ++ r2) = last_ts (last_ts d r1) r2.
Proof. revert d. induction r1; intros d; cbn; auto. Qed.

(* ---------- cutting a complete piece ---------- *)

Lemma take_drop m l : take_upto m l ++ drop_upto m l = l.
Proof. induction l as [|e l IH]; cbn; auto. destruct (fst e <=? m); cbn; [now f_equal|auto]. Qed.
Lemma take_le m l t x : In (t, x) (take_upto m l) -> t <= m.
Proof.
  induction l as [|e l IH]; cbn; [easy|]. destruct (fst e <=? m) eqn:E; cbn; [|easy].
  intros [->|Hin]; auto. now apply Z.leb_le in E.
Qed.
Lemma drop_gt m l t x : StronglySorted Z.lt (map fst l) -> In (t, x) (drop_upto m l) -> m < t.
Proof.
  induction l as [|e l IH]; cbn; [easy|]. intros Hs. apply StronglySorted_inv in Hs as [Hs F]. rewrite Forall_forall in F.
  destruct (fst e <=? m) eqn:E; auto. apply Z.leb_gt in E.
  intros [->|Hin]; auto. apply (in_map fst) in Hin. apply F in Hin. cbn in Hin. lia.
Qed.

Lemma sorted_part (a b : list Z) : StronglySorted Z.lt (a ++ b) -> StronglySorted Z.lt a /\ StronglySorted Z.lt b.
Proof.
  induction a as [|x a IH]; cbn; intros Hs; [split; [constructor|auto]|]. apply StronglySorted_inv in Hs as [Hs F].
  destruct (IH Hs). split; auto. constructor; auto. rewrite Forall_forall in *. intros y Hy. apply F. rewrite in_app_iff. auto.
Qed.

Lemma complete_cut l lo hi m k : complete l lo hi k -> lo <= m <= hi ->
  complete l lo m (take_upto m k) /\ complete l m hi (drop_upto m k).
Proof.
  intros [A1 A2 A3 A4 A5] L2. pose proof (increasing_sorted _ A1) as Hs.
  pose proof Hs as Hs'. rewrite <- (take_drop m k), map_app in Hs'. apply sorted_part in Hs' as [S1 S2].
  assert (INT : forall e, In e (take_upto m k) -> In e k) by (intros e He; rewrite <- (take_drop m k), in_app_iff; auto).
  assert (IND : forall e, In e (drop_upto m k) -> In e k) by (intros e He; rewrite <- (take_drop m k), in_app_iff; auto).
  split; constructor; auto using sorted_incr.
  - intros t x Hin. pose proof (take_le _ _ _ _ Hin). apply INT, A2 in Hin. lia.
  - intros c v Hc B. assert (Hin : In (c, Some v) k) by (apply A4; auto; lia).
    rewrite <- (take_drop m k), in_app_iff in Hin. destruct Hin as [Hin|Hin]; auto. apply drop_gt in Hin; auto. lia.
  - intros t x Hin. pose proof (drop_gt _ _ _ _ Hs Hin). apply IND, A2 in Hin. lia.
  - intros c v Hc B. assert (Hin : In (c, Some v) k) by (apply A4; auto; lia).
    rewrite <- (take_drop m k), in_app_iff in Hin. destruct Hin as [Hin|Hin]; auto. apply take_le in Hin. lia.
Qed.

Lemma complete_tail l lo m k : complete l lo (last_ts lo k) k -> lo <= m <= last_ts lo k ->
  complete l m (last_ts m (drop_upto m k)) (drop_upto m k).
Proof.
  intros C L. destruct (complete_cut _ _ _ _ _ C L) as [_ D].
  destruct (drop_upto m k) as [|e d] eqn:E.
  - constructor; try easy; [intros r1 a b r2 X; now destruct r1|]. cbn. intros c v _ B. lia.
  - rewrite <- (take_drop m k), last_ts_app, E in D. exact D.
Qed.

(* ---------- the queue ---------- *)

Definition q_sorted (q : list (Z * item)) : Prop := StronglySorted Z.le (map (fun e => fst (snd e)) q).

Lemma enqueue_in e q x : In x (enqueue e q) <-> x = e \/ In x q.
Proof.
  induction q as [|y q IH]; cbn; [intuition|]. destruct (fst (snd e) <=? fst (snd y)); cbn; [intuition|]. rewrite IH. intuition.
Qed.
Lemma enqueue_sorted e q : q_sorted q -> q_sorted (enqueue e q).
Proof.
  unfold q_sorted. induction q as [|y q IH]; cbn; intros Hs; [repeat constructor|].
  pose proof Hs as Hs0. apply StronglySorted_inv in Hs as [Hs F]. rewrite Forall_forall in F.
  destruct (fst (snd e) <=? fst (snd y)) eqn:E; cbn.
  - apply Z.leb_le in E. constructor; auto. apply Forall_forall. cbn. intros x [<-|Hx]; auto. apply F in Hx. lia.
  - apply Z.leb_gt in E. constructor; auto. apply Forall_forall. intros x Hx. apply in_map_iff in Hx as (z & <- & Hz).
    apply enqueue_in in Hz as [->|Hz]; [lia|]. apply F. apply in_map_iff. eauto.
Qed.
Lemma order_sorted l : q_sorted (in_order_of l).
Proof. induction l; cbn; [constructor|now apply enqueue_sorted]. Qed.
Lemma order_in l x : In x (in_order_of l) <-> In x l.
Proof. induction l as [|y l IH]; cbn; [easy|]. rewrite enqueue_in, IH. intuition. Qed.

Lemma enqueue_filter f e q : q_sorted q ->
  filter f (enqueue e q) = if f e then enqueue e (filter f q) else filter f q.
Proof.
  unfold q_sorted. induction q as [|y q IH]; cbn; intros Hs; [destruct (f e); auto|].
  apply StronglySorted_inv in Hs as [Hs F]. rewrite Forall_forall in F. specialize (IH Hs).
  destruct (fst (snd e) <=? fst (snd y)) eqn:E; cbn.
  - apply Z.leb_le in E. destruct (f e); auto. destruct (f y); cbn.
    + apply Z.leb_le in E. now rewrite E.
    + destruct (filter f q) as [|z zs] eqn:Fq; auto. cbn.
      assert (Hz : In z q) by (assert (X : In z (filter f q)) by (rewrite Fq; cbn; auto); apply filter_In in X; apply X).
      assert (L : fst (snd y) <= fst (snd z)) by (apply F; apply in_map_iff; eauto).
      replace (fst (snd e) <=? fst (snd z)) with true; auto. symmetry. apply Z.leb_le. lia.
  - rewrite IH. destruct (f y), (f e); cbn; auto. now rewrite E.
Qed.

Lemma order_filter f l : filter f (in_order_of l) = in_order_of (filter f l).
Proof.
  induction l as [|e l IH]; auto. change (in_order_of (e :: l)) with (enqueue e (in_order_of l)).
  rewrite enqueue_filter by apply order_sorted. rewrite IH. cbn [filter]. destruct (f e); auto.
Qed.

Lemma order_id l : q_sorted l -> in_order_of l = l.
Proof.
  unfold q_sorted. induction l as [|e l IH]; cbn; intros Hs; auto. apply StronglySorted_inv in Hs as [Hs F].
  unfold in_order_of in IH. rewrite IH by auto. destruct l as [|x l]; auto. cbn in *.
  apply Forall_inv in F. apply Z.leb_le in F. now rewrite F.
Qed.

Lemma q_sorted_item i (k : list item) : StronglySorted Z.lt (map fst k) -> q_sorted (map (pair i) k).
Proof.
  unfold q_sorted. rewrite map_map. cbn. induction k as [|a k IH]; cbn; intros Hs; constructor;
    apply StronglySorted_inv in Hs as [Hs F]; auto. rewrite Forall_forall in *. intros x Hx. apply F in Hx. lia.
Qed.

Lemma filter_none (cs : list (Z * list item)) i m : ~ In i (keys cs) ->
  filter (fun e => fst e =? i) (flat_map (fun ik => map (pair (fst ik)) (take_upto m (snd ik))) cs) = [].
Proof.
  induction cs as [|[a k] cs IH]; cbn; intros N; auto. rewrite filter_app, IH by auto. rewrite app_nil_r.
  induction (take_upto m k); cbn; auto. replace (a =? i) with false; auto. symmetry. apply Z.eqb_neq. auto.
Qed.

Lemma filter_one (cs : list (Z * list item)) i k m : sorted cs -> get i cs = Some k ->
  filter (fun e => fst e =? i) (flat_map (fun ik => map (pair (fst ik)) (take_upto m (snd ik))) cs) =
  map (pair i) (take_upto m k).
Proof.
  induction cs as [|[a x] cs IH]; intros Hs G; [discriminate|]. unfold sorted in Hs. cbn in Hs.
  apply StronglySorted_inv in Hs as [Hs F]. rewrite Forall_forall in F. cbn. rewrite filter_app. cbn in G.
  destruct (i =? a) eqn:E.
  - apply Z.eqb_eq in E as ->. injection G as ->. rewrite filter_none; [|intros Hin; apply F in Hin; lia].
    rewrite app_nil_r. clear. induction (take_upto m k) as [|x y IHy]; cbn; auto. rewrite Z.eqb_refl, IHy. reflexivity.
  - rewrite IH; auto. replace (filter (fun e => fst e =? i) (map (pair a) (take_upto m x))) with (@nil (Z * item)); auto.
    induction (take_upto m x); cbn; auto. rewrite Z.eqb_sym, E. auto.
Qed.

Lemma merge_region c i k m : sorted (caches c) -> get i (caches c) = Some k -> StronglySorted Z.lt (map fst k) ->
  of_region i (in_order_of (flat_map (fun ik => map (pair (fst ik)) (take_upto m (snd ik))) (caches c))) = take_upto m k.
Proof.
  intros Hs G Hk. unfold of_region. rewrite order_filter, (filter_one _ _ _ _ Hs G), order_id.
  - rewrite map_map. cbn. apply map_id.
  - apply q_sorted_item. rewrite <- (take_drop m k), map_app in Hk. now apply sorted_part in Hk.
Qed.

Lemma min_le l : forall d x, In x l \/ x = d -> fold_left Z.min l d <= x.
Proof.
  induction l as [|a l IH]; cbn; intros d x; [intros [[]| ->]; lia|].
  intros [[->|Hx]|Hx].
  - transitivity (Z.min d x); [apply IH; auto|lia].
  - apply IH. auto.
  - subst x. transitivity (Z.min d a); [apply IH; auto|lia].
Qed.

Lemma last_taken_split q : forall d, q <> [] -> exists q0 e, q = q0 ++ [e] /\ last_taken d q = fst (snd e).
Proof.
  induction q as [|x q IH]; intros d N; [congruence|]. destruct q as [|y q].
  - exists [], x. auto.
  - destruct (IH (fst (snd x))) as (q0 & e & E & L); [discriminate|]. exists (x :: q0), e. cbn [last_taken] in *. rewrite E. auto.
Qed.

Lemma last_taken_max q d e : q_sorted q -> In e q -> fst (snd e) <= last_taken d q.
Proof.
  intros Hs Hin. destruct (last_taken_split q d) as (q0 & z & -> & ->); [now intros ->|].
  apply in_app_iff in Hin as [Hin|[->|[]]]; [|lia]. unfold q_sorted in Hs. rewrite map_app in Hs.
  apply (in_map (fun e => fst (snd e))) in Hin. revert Hs Hin. generalize (map (fun e : Z * item => fst (snd e)) q0).
  intros l. induction l as [|y l IH]; [easy|]. cbn. intros Hs [->|Hin]; apply StronglySorted_inv in Hs as [Hs F]; auto.
  rewrite Forall_forall in F. apply F. rewrite in_app_iff. cbn. auto.
Qed.

Lemma last_ts_any d d' r : r <> [] -> last_ts d r = last_ts d' r.
Proof. destruct r; [congruence|reflexivity]. Qed.

Lemma take_same m p k : (forall t x, In (t, x) (take_upto m k) -> t <= p) -> p <= m -> StronglySorted Z.lt (map fst k) ->
  take_upto m k = take_upto p k.
Proof.
  intros B L. induction k as [|e k IH]; intros Hs; auto. cbn in *. apply StronglySorted_inv in Hs as [Hs _].
  destruct (fst e <=? m) eqn:E.
  - replace (fst e <=? p) with true; [f_equal; apply IH; auto; intros t x Hin; apply (B t x); now right|].
    symmetry. apply Z.leb_le. destruct e as [t x]. apply (B t x). now left.
  - apply Z.leb_gt in E. replace (fst e <=? p) with false; auto. symmetry. apply Z.leb_gt. lia.
Qed.

(* ---------- the state of the subscriber ---------- *)

Section Session.
Variable ids : list Z.
Variable logs : Z -> list op.
Hypothesis ids_once : NoDup ids.

Record capinv (c : cap) : Prop := {
  ci_sorted : sorted (caches c);
  ci_known : forall i, In i (keys (caches c)) -> In i ids;
  ci_complete : forall i, In i ids -> complete (logs i) (last c) (last_ts (last c) (cache_of c i)) (cache_of c i)
}.

Lemma complete_nil l p : complete l p p [].
Proof. constructor; try easy; [intros r1 a b r2 X; now destruct r1|intros c v _ B; lia]. Qed.

Lemma touch_get m i j : get j (touch m i) = if j =? i then match get i m with Some k => Some k | None => Some [] end else get j m.
Proof.
  unfold touch. destruct (get i m) as [k|] eqn:G.
  - destruct (j =? i) eqn:E; auto. apply Z.eqb_eq in E as ->. auto.
  - rewrite put_get. now destruct (j =? i).
Qed.
Lemma touch_keys m i x : In x (keys (touch m i)) -> x = i \/ In x (keys m).
Proof. unfold touch. destruct (get i m); auto. intros Hin. now apply put_keys in Hin. Qed.
Lemma touch_sorted m i : sorted m -> sorted (touch m i).
Proof. unfold touch. destruct (get i m); auto. now apply put_sorted. Qed.

Lemma touch_all l : forall m, sorted m -> sorted (fold_left touch l m) /\
  (forall x, In x (keys (fold_left touch l m)) -> In x l \/ In x (keys m)) /\
  (forall j, match get j (fold_left touch l m) with Some k => k | None => [] end = match get j m with Some k => k | None => [] end) /\
  (forall j, In j l \/ get j m <> None -> get j (fold_left touch l m) <> None).
Proof.
  induction l as [|i l IH]; cbn; intros m Hs; [repeat split; auto; intros j [[]|X]; auto|].
  destruct (IH (touch m i) (touch_sorted _ _ Hs)) as (A & B & C & D). split; auto. split; [|split].
  - intros x Hx. apply B in Hx as [Hx|Hx]; auto. apply touch_keys in Hx as [->|Hx]; auto.
  - intros j. rewrite C, touch_get. destruct (j =? i) eqn:E; auto. apply Z.eqb_eq in E as ->. destruct (get i m); auto.
  - intros j Hj. apply D. rewrite touch_get. destruct (j =? i) eqn:E.
    + right. destruct (get i m); discriminate.
    + destruct Hj as [[->|Hj]|Hj]; auto. rewrite Z.eqb_refl in E. discriminate.
Qed.

Lemma want_once (f : Z -> bool) (g : Z -> Z) l : NoDup l ->
  NoDup (map fst (flat_map (fun i => if f i then [] else [(i, g i)]) l)).
Proof.
  induction 1 as [|i l N ND IH]; [constructor|]. cbn [flat_map]. rewrite map_app. destruct (f i); auto. cbn [map app fst].
  constructor; auto. intros Hin. apply N. apply in_map_iff in Hin as ([a p] & E & Hin). cbn in E. subst a.
  apply in_flat_map in Hin as (x & Hx & Hin). destruct (f x); [easy|]. destruct Hin as [X|[]]. congruence.
Qed.

Lemma regions_ok mc ts c c1 want : capinv c -> regions_step ids mc ts c = (c1, want) ->
  capinv c1 /\ last c1 = ts /\ NoDup (map fst want) /\
  (forall i p, In (i, p) want -> In i ids /\ p = last_ts ts (cache_of c1 i)) /\
  (forall i, In i ids -> In i (map fst want) \/ get i (caches c1) <> None).
Proof.
  intros [Hs Hk Hc] E. unfold regions_step in E. destruct (ts =? last c) eqn:ET; injection E as <- <-.
  - apply Z.eqb_eq in ET. subst ts.
    destruct (touch_all ids (caches c) Hs) as (A & B & C & D).
    set (c1 := Cap (last c) (fold_left touch ids (caches c))).
    assert (CO : forall j, cache_of c1 j = cache_of c j) by exact C.
    split; [|split; [reflexivity|split; [|split]]].
    + constructor; auto.
      * intros i Hi. apply B in Hi as [Hi|Hi]; auto.
      * intros i Hi. rewrite CO. cbn. now apply Hc.
    + apply (want_once (fun i => (mc <? length (cache_of c1 i))%nat) (fun i => last_ts (last c) (cache_of c1 i))). exact ids_once.
    + intros i p Hin. apply in_flat_map in Hin as (x & Hx & Hin). destruct (mc <? length (cache_of c1 x))%nat; [easy|].
      destruct Hin as [X|[]]. injection X as -> <-. auto.
    + intros i Hi. right. apply D. auto.
  - split; [|split; [reflexivity|split; [|split]]].
    + constructor; [constructor|easy|]. intros i Hi. cbn. apply complete_nil.
    + rewrite map_map. cbn. now rewrite map_id.
    + intros i p Hin. apply in_map_iff in Hin as (x & X & Hx). injection X as -> <-. auto.
    + intros i Hi. left. rewrite map_map. cbn. now rewrite map_id.
Qed.

Definition add_answer (ans : Z -> option (list item)) (c : cap) (ip : Z * Z) : cap :=
  insert_all c (fst ip) (match ans (fst ip) with Some r => r | None => [] end).

Lemma insert_ok c i r : capinv c -> In i ids ->
  complete (logs i) (last_ts (last c) (cache_of c i)) (last_ts (last_ts (last c) (cache_of c i)) r) r ->
  capinv (insert_all c i r) /\ cache_of (insert_all c i r) i = cache_of c i ++ r /\ last (insert_all c i r) = last c /\
  (forall j, j <> i -> get j (caches (insert_all c i r)) = get j (caches c)) /\ get i (caches (insert_all c i r)) <> None.
Proof.
  intros [Hs Hk Hc] Hi CR.
  assert (L1 : last c <= last_ts (last c) (cache_of c i)) by (eapply complete_le; eauto).
  assert (L2 : last_ts (last c) (cache_of c i) <= last_ts (last_ts (last c) (cache_of c i)) r) by (eapply complete_le; eauto).
  assert (CA : complete (logs i) (last c) (last_ts (last c) (cache_of c i ++ r)) (cache_of c i ++ r)).
  { rewrite last_ts_app. eapply complete_app; eauto. }
  assert (E : fold_left (fun m e => put (fst e) (snd e) m) r (cache_of c i) = cache_of c i ++ r).
  { apply put_all_app. apply increasing_sorted. apply (in_order _ _ _ _ CA). }
  assert (G : forall j, get j (caches (insert_all c i r)) = if j =? i then Some (cache_of c i ++ r) else get j (caches c)).
  { intros j. unfold insert_all. cbn. rewrite E. apply put_get. }
  assert (CI : cache_of (insert_all c i r) i = cache_of c i ++ r).
  { unfold cache_of at 1. rewrite G, Z.eqb_refl. reflexivity. }
  split; [|split; [exact CI|split; [reflexivity|split]]].
  - constructor.
    + cbn. now apply put_sorted.
    + intros j Hj. cbn in Hj. apply put_keys in Hj as [->|Hj]; auto.
    + intros j Hj. destruct (Z.eq_dec j i) as [->|N].
      * rewrite CI. exact CA.
      * assert (CJ : cache_of (insert_all c i r) j = cache_of c j).
        { unfold cache_of. rewrite G. apply Z.eqb_neq in N. now rewrite N. }
        rewrite CJ. cbn. now apply Hc.
  - intros j N. rewrite G. apply Z.eqb_neq in N. now rewrite N.
  - rewrite G, Z.eqb_refl. discriminate.
Qed.

Lemma inserts_ok ans want : forall c, capinv c -> NoDup (map fst want) ->
  (forall i p, In (i, p) want -> In i ids /\ p = last_ts (last c) (cache_of c i)) ->
  (forall i p, In (i, p) want -> exists r, ans i = Some r /\ complete (logs i) p (last_ts p r) r) ->
  let c2 := fold_left (add_answer ans) want c in
  capinv c2 /\ last c2 = last c /\ (forall i, In i (map fst want) \/ get i (caches c) <> None -> get i (caches c2) <> None) /\
  (forall i, In i ids -> exists y, cache_of c2 i = cache_of c i ++ y) /\
  (forall i r, In i (map fst want) -> ans i = Some r -> cache_of c2 i = cache_of c i ++ r).
Proof.
  induction want as [|[i p] want IH]; intros c I0 ND P A; cbn.
  { split; auto. split; auto. split; [intros j [[]|X]; auto|]. split; [|easy]. intros j _. exists []. now rewrite app_nil_r. }
  inversion ND; subst. destruct (P i p) as [Hi Ep]; [now left|]. destruct (A i p) as (r & Er & CR); [now left|].
  subst p. destruct (insert_ok c i r I0 Hi CR) as (I1 & C1 & L1 & G1 & N1).
  assert (EA : add_answer ans c (i, last_ts (last c) (cache_of c i)) = insert_all c i r).
  { unfold add_answer. cbn [fst]. now rewrite Er. }
  rewrite EA.
  assert (CJ : forall j, j <> i -> cache_of (insert_all c i r) j = cache_of c j).
  { intros j N. unfold cache_of. now rewrite G1. }
  assert (NI : forall j q, In (j, q) want -> j <> i).
  { intros j q Hin ->. apply H1. apply (in_map fst) in Hin. exact Hin. }
  destruct (IH (insert_all c i r)) as (X1 & X2 & X3 & X4 & X5); auto.
  - intros j q Hin. destruct (P j q) as [Hj Eq]; [now right|]. split; auto. rewrite L1, CJ by (eapply NI; eauto). auto.
  - intros j q Hin. apply A. now right.
  - split; auto. split; [congruence|]. split; [|split].
    + intros j Hj. apply X3. destruct (Z.eq_dec j i) as [->|N]; [right; auto|].
      destruct Hj as [[Hj|Hj]|Hj]; [congruence|auto|]. right. now rewrite G1.
    + intros j Hj. destruct (X4 j Hj) as [y E]. destruct (Z.eq_dec j i) as [->|N].
      * exists (r ++ y). rewrite E, C1, <- app_assoc. reflexivity.
      * exists y. rewrite E, CJ; auto.
    + intros j rj [<-|Hj] Ej.
      * destruct (X4 i Hi) as [y E].
        assert (get i (caches (fold_left (add_answer ans) want (insert_all c i r))) = get i (caches (insert_all c i r))).
        { clear -H1 ids_once. revert H1. generalize (insert_all c i r). induction want as [|[a b] w IHw]; cbn; auto.
          intros c0 N. rewrite IHw by tauto. unfold add_answer, insert_all. cbn. rewrite put_get.
          replace (i =? a) with false; auto. symmetry. apply Z.eqb_neq. intros ->. apply N. auto. }
        unfold cache_of at 1. rewrite H. fold (cache_of (insert_all c i r) i). rewrite C1. congruence.
      * assert (j <> i) by (apply in_map_iff in Hj as ([a q] & <- & Hin); eapply NI; eauto).
        rewrite (X5 j rj Hj Ej), CJ; auto.
Qed.

Lemma get_map_drop p cs i : get i (map (fun ik => (fst ik, drop_upto p (snd ik))) cs) = match get i cs with Some k => Some (drop_upto p k) | None => None end.
Proof. induction cs as [|[a k] cs IH]; cbn; auto. destruct (i =? a); auto. Qed.

Lemma merge_ok c : capinv c -> (forall i, In i ids -> get i (caches c) <> None) ->
  let p := last_taken (last c) (merge c) in last c <= p ->
  complete_all ids logs (last c) p (merge c) /\ capinv (update_commit_ts c p).
Proof.
  intros [Hs Hk Hc] Hall p LE.
  assert (GC : forall i, In i ids -> get i (caches c) = Some (cache_of c i)).
  { intros i Hi. pose proof (Hall i Hi). unfold cache_of. destruct (get i (caches c)); congruence. }
  assert (KS : forall i, In i ids -> StronglySorted Z.lt (map fst (cache_of c i))).
  { intros i Hi. apply increasing_sorted. apply (in_order _ _ _ _ (Hc i Hi)). }
  (* how far every region is known, and what is delivered *)
  assert (MAIN : (forall i, In i ids -> p <= last_ts (last c) (cache_of c i)) /\
                 (forall i, In i ids -> of_region i (merge c) = take_upto p (cache_of c i)) /\
                 q_sorted (merge c) /\ (forall e, In e (merge c) -> In (fst e) ids)).
  { subst p. unfold merge in *.
    destruct (existsb (fun ik : Z * list item => match snd ik with [] => true | _ => false end) (caches c)) eqn:EX.
    - cbn. split; [|split; [|split; [constructor|easy]]].
      + intros i Hi. eapply complete_le. apply Hc. auto.
      + intros i Hi. pose proof (Hc i Hi) as C. destruct (cache_of c i) as [|[t x] k] eqn:EK; auto.
        destruct (in_range _ _ _ _ C t x) as [B _]; [now left|]. cbn [take_upto fst].
        replace (t <=? last c) with false; auto. symmetry. now apply Z.leb_gt.
    - set (m := fold_left Z.min (map (fun ik => last_ts 0 (snd ik)) (caches c)) int64_max) in *.
      set (q := in_order_of (flat_map (fun ik => map (pair (fst ik)) (take_upto m (snd ik))) (caches c))) in *.
      assert (ML : forall i, In i ids -> cache_of c i <> [] /\ m <= last_ts (last c) (cache_of c i)).
      { intros i Hi. pose proof (get_in _ _ _ (GC i Hi)) as Hin.
        assert (NE : cache_of c i <> []).
        { intros X. assert (existsb (fun ik : Z * list item => match snd ik with [] => true | _ => false end) (caches c) = true); [|congruence].
          apply existsb_exists. exists (i, cache_of c i). split; auto. cbn. now rewrite X. }
        split; auto. rewrite (last_ts_any _ 0) by auto. apply min_le. left. apply in_map_iff. exists (i, cache_of c i). auto. }
      assert (QM : forall e, In e q -> fst (snd e) <= m /\ In (fst e) ids).
      { intros [i [t x]] He. apply (proj1 (order_in _ _)) in He. apply in_flat_map in He as ([j k] & Hj & He).
        apply in_map_iff in He as ([t' x'] & X & He). injection X as -> -> ->. split; [eapply take_le; eauto|].
        apply Hk. apply (in_map fst) in Hj. exact Hj. }
      assert (QS : q_sorted q) by apply order_sorted.
      destruct q as [|e0 q0] eqn:EQ.
      + split; [|split; [|split; [constructor|easy]]].
        * intros i Hi. cbn. eapply complete_le. apply Hc. auto.
        * intros i Hi. cbn. destruct (ML i Hi) as [NE _]. pose proof (Hc i Hi) as C.
          destruct (cache_of c i) as [|[t x] k] eqn:EK; auto. cbn [take_upto fst last_taken].
          destruct (in_range _ _ _ _ C t x) as [B _]; [now left|].
          replace (t <=? last c) with false; auto. symmetry. now apply Z.leb_gt.
      + rewrite <- EQ in *. assert (NQ : q <> []) by (rewrite EQ; discriminate).
        assert (PM : last_taken (last c) q <= m).
        { destruct (last_taken_split q (last c) NQ) as (q1 & e & E & ->). apply QM. rewrite E, in_app_iff. cbn. auto. }
        split; [|split; [|split; [exact QS|intros e He; now apply QM]]].
        * intros i Hi. destruct (ML i Hi). lia.
        * intros i Hi. unfold q. rewrite (merge_region c i (cache_of c i)); auto. apply take_same; auto.
          intros t x Hin. apply (last_taken_max q (last c) (i, (t, x))); auto.
          apply order_in. apply in_flat_map. exists (i, cache_of c i). split; [apply get_in; auto|].
          apply in_map_iff. exists (t, x). auto. }
  destruct MAIN as (M1 & M2 & M3 & M4). split.
  - constructor; auto.
    + intros g1 a b g2 E. rewrite E in M3. unfold q_sorted in M3. rewrite map_app in M3. cbn in M3.
      revert M3. generalize (map (fun e : Z * item => fst (snd e)) g1). intros l. induction l; cbn; intros Hq.
      * apply StronglySorted_inv in Hq as [_ F]. now apply Forall_inv in F.
      * apply StronglySorted_inv in Hq as [Hq _]. auto.
    + intros i Hi. rewrite M2 by auto. eapply complete_cut; [apply Hc; auto|]. split; auto.
  - constructor; cbn.
    + unfold sorted. unfold keys. rewrite map_map. cbn. exact Hs.
    + intros i Hi. unfold keys in Hi. rewrite map_map in Hi. cbn in Hi. now apply Hk.
    + intros i Hi. unfold cache_of, update_commit_ts. cbn. rewrite get_map_drop, GC by auto.
      apply (complete_tail (logs i) (last c) p (cache_of c i)); [now apply Hc|]. split; auto.
Qed.

(* An answer is a read from the region at the position asked for. *)
Definition answers_ok (ans : Z -> option (list item)) (want : list (Z * Z)) : Prop :=
  forall i p r, In (i, p) want -> ans i = Some r -> complete (logs i) p (last_ts p r) r.

Lemma subscribe_ok mc ok ans ts c c' ts' q : capinv c -> answers_ok ans (snd (regions_step ids mc ts c)) ->
  subscribe ids mc ok ans ts c = (c', ts', q) -> capinv c' /\ complete_all ids logs ts ts' q /\ ts <= ts'.
Proof.
  intros I0 A E. unfold subscribe in E. destruct (regions_step ids mc ts c) as [c1 want] eqn:ER.
  destruct (regions_ok mc ts c c1 want I0 ER) as (I1 & L1 & ND & P & COV). cbn in A.
  assert (NIL : complete_all ids logs ts ts []).
  { constructor; [intros g1 a b g2 X; now destruct g1|easy|intros i Hi; apply complete_nil]. }
  destruct (forallb _ want) eqn:FA; [|injection E as <- <- <-; split; [auto|split; [auto|lia]]].
  change (fold_left (fun c ip => insert_all c (fst ip) (match ans (fst ip) with Some r => r | None => [] end)) want c1)
    with (fold_left (add_answer ans) want c1) in E.
  rewrite forallb_forall in FA.
  destruct (inserts_ok ans want c1 I1 ND) as (I2 & L2 & G2 & _ & _).
  { intros i p Hin. destruct (P i p Hin). rewrite L1. auto. }
  { intros i p Hin. specialize (FA _ Hin). cbn in FA. destruct (ans i) as [r|] eqn:EA; [|discriminate].
    exists r. split; [auto|apply (A i p r); auto]. }
  set (c2 := fold_left (add_answer ans) want c1) in *.
  assert (ALL : forall i, In i ids -> get i (caches c2) <> None) by (intros i Hi; apply G2, COV, Hi).
  assert (L3 : last c2 = ts) by congruence.
  destruct ok; [|injection E as <- <- <-; split; [auto|split; [auto|lia]]].
  destruct (last_taken ts (merge c2) <? ts) eqn:EL; [injection E as <- <- <-; split; [auto|split; [auto|lia]]|].
  apply Z.ltb_ge in EL. injection E as <- <- <-.
  destruct (merge_ok c2 I2 ALL) as [X1 X2]; rewrite L3 in *; auto.
Qed.

(* If every region to be read answers, something is delivered. *)
Lemma subscribe_moves mc ans ts c c' ts' q : capinv c -> ids <> [] -> answers_ok ans (snd (regions_step ids mc ts c)) ->
  (forall i, In i ids -> exists e r, ans i = Some (e :: r)) ->
  (forall i o, In i ids -> In o (logs i) -> o_ts o <= int64_max) ->
  subscribe ids mc true ans ts c = (c', ts', q) -> q <> [] /\ ts < ts'.
Proof.
  intros I0 NE A ANS B1 E. unfold subscribe in E. destruct (regions_step ids mc ts c) as [c1 want] eqn:ER.
  destruct (regions_ok mc ts c c1 want I0 ER) as (I1 & L1 & ND & P & COV). cbn in A.
  assert (FA : forallb (fun ip => match ans (fst ip) with Some (_ :: _) => true | _ => false end) want = true).
  { apply forallb_forall. intros [i p] Hin. destruct (P i p Hin) as [Hi _]. destruct (ANS i Hi) as (e & r & Ea). cbn. now rewrite Ea. }
  rewrite FA in E.
  change (fold_left (fun c ip => insert_all c (fst ip) (match ans (fst ip) with Some r => r | None => [] end)) want c1)
    with (fold_left (add_answer ans) want c1) in E.
  destruct (inserts_ok ans want c1 I1 ND) as (I2 & L2 & G2 & Y2 & X2).
  { intros i p Hin. destruct (P i p Hin). rewrite L1. auto. }
  { intros i p Hin. destruct (P i p Hin) as [Hi _]. destruct (ANS i Hi) as (e & r & Ea). exists (e :: r). split; [auto|apply (A i p (e :: r)); auto]. }
  set (c2 := fold_left (add_answer ans) want c1) in *.
  assert (ALL : forall i, In i ids -> get i (caches c2) <> None) by (intros i Hi; apply G2, COV, Hi).
  assert (L3 : last c2 = ts) by congruence.
  assert (GC : forall i, In i ids -> get i (caches c2) = Some (cache_of c2 i)).
  { intros i Hi. pose proof (ALL i Hi). unfold cache_of. destruct (get i (caches c2)); congruence. }
  (* every region has something *)
  assert (SOME : forall i, In i ids -> cache_of c2 i <> []).
  { intros i Hi. destruct (in_dec Z.eq_dec i (map fst want)) as [W|W].
    - destruct (ANS i Hi) as (e & r & Ea). rewrite (X2 i _ W Ea). now destruct (cache_of c1 i).
    - destruct (Y2 i Hi) as [y ->]. enough (cache_of c1 i <> []) by (now destruct (cache_of c1 i)).
      clear -ER W Hi. unfold regions_step in ER. destruct (ts =? last c); injection ER as <- <-.
      + intros X. apply W. apply in_map_iff. exists (i, last_ts (last c) []). split; auto. apply in_flat_map.
        exists i. split; auto. cbn in *. rewrite X. cbn. left. reflexivity.
      + exfalso. apply W. rewrite map_map. cbn. now rewrite map_id. }
  assert (BND : forall i e, In i ids -> In e (cache_of c2 i) -> fst e <= int64_max).
  { intros i [t x] Hi Hin. pose proof (ci_complete _ I2 i Hi) as C. destruct x as [v|]; cbn.
    - destruct (only_committed _ _ _ _ C t v Hin) as (o & _ & Ho & _ & <- & _). now apply (B1 i).
    - destruct (heartbeats _ _ _ _ C t Hin) as (o & Ho & _ & <-). now apply (B1 i). }
  assert (QN : exists j t x, In j ids /\ In (j, (t, x)) (merge c2) /\ ts < t).
  { unfold merge. replace (existsb _ (caches c2)) with false.
    2:{ symmetry. destruct (existsb _ (caches c2)) eqn:EX; auto. exfalso. apply existsb_exists in EX as ([i k] & Hin & EX).
        assert (Hi : In i ids) by (apply (ci_known _ I2); apply (in_map fst) in Hin; exact Hin).
        pose proof (GC i Hi) as G. apply in_get in Hin; [|apply (ci_sorted _ I2)]. rewrite Hin in G. injection G as ->.
        cbn in EX. apply (SOME i Hi). now destruct (cache_of c2 i). }
    set (ls := map (fun ik => last_ts 0 (snd ik)) (caches c2)). set (m := fold_left Z.min ls int64_max).
    assert (MIN : m = int64_max \/ In m ls).
    { unfold m. generalize int64_max. clear. induction ls as [|a ls IH]; cbn; intros d; auto.
      destruct (IH (Z.min d a)) as [E|E]; auto. rewrite E. destruct (Z.min_spec d a) as [[_ ->]|[_ ->]]; auto. }
    assert (J : exists j e k, In j ids /\ cache_of c2 j = e :: k /\ fst e <= m).
    { destruct MIN as [->|MIN].
      - destruct ids as [|j l] eqn:Ei; [congruence|]. assert (Hj : In j (j :: l)) by now left.
        destruct (cache_of c2 j) as [|e k] eqn:Ek; [exfalso; apply (SOME j); auto|]. exists j, e, k. split; auto. split; auto.
        apply (BND j); auto. rewrite Ek. now left.
      - apply in_map_iff in MIN as ([j k] & Em & Hin). cbn in Em.
        assert (Hj : In j ids) by (apply (ci_known _ I2); apply (in_map fst) in Hin; exact Hin).
        pose proof (GC j Hj) as G. apply in_get in Hin; [|apply (ci_sorted _ I2)]. rewrite Hin in G. injection G as ->.
        destruct (cache_of c2 j) as [|[t x] k] eqn:Ek; [exfalso; apply (SOME j); auto|]. exists j, (t, x), k. split; auto. split; auto.
        rewrite <- Em, <- Ek. cbn. apply (prefix_range _ [] 0 t x); [|rewrite Ek; now left]. rewrite app_nil_r.
        apply increasing_sorted. apply (in_order _ _ _ _ (ci_complete _ I2 j Hj)). }
    destruct J as (j & [t x] & k & Hj & Ek & Lt). exists j, t, x. split; auto. split.
    - apply order_in. apply in_flat_map. exists (j, cache_of c2 j). split; [apply get_in; auto|].
      apply in_map_iff. exists (t, x). split; auto. cbn [snd]. rewrite Ek. cbn in *.
      apply Z.leb_le in Lt. rewrite Lt. now left.
    - rewrite <- L3. apply (in_range _ _ _ _ (ci_complete _ I2 j Hj) t x). rewrite Ek. now left. }
  destruct QN as (j & t & x & Hj & Hq & Lt).
  assert (QS : q_sorted (merge c2)).
  { unfold merge. destruct (existsb _ _); [constructor|apply order_sorted]. }
  pose proof (last_taken_max _ ts _ QS Hq) as LM. cbn in LM.
  destruct (last_taken ts (merge c2) <? ts) eqn:EL; [apply Z.ltb_lt in EL; lia|]. injection E as <- <- <-.
  split; [|lia]. intros X. rewrite X in Hq. easy.
Qed.

Lemma cap0_inv : capinv cap0.
Proof. constructor; [constructor|easy|]. intros i Hi. apply complete_nil. Qed.

Lemma complete_all_app lo mid hi g1 g2 : complete_all ids logs lo mid g1 -> complete_all ids logs mid hi g2 -> lo <= mid <= hi ->
  complete_all ids logs lo hi (g1 ++ g2).
Proof.
  intros [A1 A2 A3] [B1 B2 B3] LE.
  assert (R1 : forall e, In e g1 -> fst (snd e) <= mid).
  { intros [i [t x]] He. assert (Hi : In i ids) by (apply A2 in He; exact He).
    apply (in_range _ _ _ _ (A3 i Hi) t x). unfold of_region. apply in_map_iff. exists (i, (t, x)). split; auto.
    apply filter_In. split; auto. cbn. apply Z.eqb_refl. }
  assert (R2 : forall e, In e g2 -> mid < fst (snd e)).
  { intros [i [t x]] He. assert (Hi : In i ids) by (apply B2 in He; exact He).
    apply (in_range _ _ _ _ (B3 i Hi) t x). unfold of_region. apply in_map_iff. exists (i, (t, x)). split; auto.
    apply filter_In. split; auto. cbn. apply Z.eqb_refl. }
  constructor.
  - intros x a b z E. apply app_eq_app in E as (m & [[E1 E2]|[E1 E2]]).
    + destruct m as [|a0 [|b0 m]]; cbn in E2.
      * apply (B1 [] a b z). auto.
      * injection E2 as <- E2. assert (fst (snd a) <= mid) by (apply R1; rewrite E1, in_app_iff; cbn; auto).
        assert (mid < fst (snd b)) by (apply R2; rewrite <- E2; cbn; auto). lia.
      * injection E2 as <- <- E2. apply (A1 x a b m). auto.
    + apply (B1 m a b z). auto.
  - intros e He. apply in_app_iff in He as [He|He]; auto.
  - intros i Hi. unfold of_region. rewrite filter_app, map_app.
    apply complete_app with (mid := mid); [now apply A3|now apply B3|exact LE].
Qed.
End Session.
