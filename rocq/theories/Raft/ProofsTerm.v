From Verif.Raft Require Import Model Spec.
From Coq Require Import Sorted.
Local Open Scope Z_scope.

Definition lt2 (a b : Z * Z) : Prop := fst a < fst b /\ snd a < snd b.
Definition tsorted (q : tmap) : Prop := StronglySorted lt2 q.

Lemma linear_app a b i : linear (a ++ b) i = if existsb (fun e => fst e <=? i) a then linear a i else linear b i.
Proof. induction a as [|[x t] a IH]; cbn; auto. destruct (x <=? i); auto. Qed.

Lemma tsorted_app q1 q2 : tsorted (q1 ++ q2) -> tsorted q1 /\ tsorted q2 /\ forall a b, In a q1 -> In b q2 -> lt2 a b.
Proof.
  unfold tsorted. induction q1 as [|x q1 IH]; cbn; intros H.
  - split; [constructor|]. split; auto. tauto.
  - inversion H; subst. destruct (IH H2) as (A & B & C). rewrite Forall_forall in H3. split; [|split; auto].
    + constructor; auto. rewrite Forall_forall. intros y I. apply H3. apply in_or_app. auto.
    + intros a b [->|I] J; [apply H3; apply in_or_app; auto|auto].
Qed.
Lemma tsorted_snoc q e : tsorted q -> (forall a, In a q -> lt2 a e) -> tsorted (q ++ [e]).
Proof.
  unfold tsorted. induction 1 as [|x q H IH F]; cbn; intros L; [repeat constructor|].
  constructor; [apply IH; auto|]. rewrite Forall_forall in *. intros y I. apply in_app_or in I.
  destruct I as [I|[<-|[]]]; auto.
Qed.

(* position-wise *)
Lemma sorted_nth q : tsorted q -> forall a b, (a < b < length q)%nat -> lt2 (nth a q (0,0)) (nth b q (0,0)).
Proof.
  unfold tsorted. induction 1 as [|x q H IH F]; cbn [length]; intros a b L; [lia|].
  destruct b as [|b]; [lia|]. destruct a as [|a]; cbn [nth].
  - rewrite Forall_forall in F. apply F. apply nth_In. lia.
  - apply IH. lia.
Qed.

(* upper_bound is correct on sorted tables *)
Lemma ub_loop_spec q x : tsorted q -> forall fuel lo len,
  (len <= fuel)%nat -> (lo + len <= length q)%nat ->
  (forall j, (j < lo)%nat -> fst (nth j q (0,0)) <= x) ->
  (forall j, (lo + len <= j < length q)%nat -> x < fst (nth j q (0,0))) ->
  let p := ub_loop fuel q x lo len in
  (p <= length q)%nat /\ (forall j, (j < p)%nat -> fst (nth j q (0,0)) <= x) /\
  (forall j, (p <= j < length q)%nat -> x < fst (nth j q (0,0))).
Proof.
  intros SQ. induction fuel as [|fuel IH]; intros lo len LF LQ HL HH; cbn [ub_loop].
  - assert (len = 0)%nat by lia. subst. rewrite Nat.add_0_r in *. auto.
  - destruct len as [|len0]; [rewrite Nat.add_0_r in *; auto|].
    assert (HV : (Nat.div2 (S len0) < S len0)%nat) by (apply Nat.lt_div2; lia).
    set (half := Nat.div2 (S len0)) in *. set (len := S len0) in *.
    destruct (Z.ltb_spec x (fst (nth (lo + half) q (0,0)))) as [C|C].
    + apply IH; auto; try lia. intros j Hj.
      destruct (Nat.eq_dec j (lo + half)); [subst; auto|].
      assert (lt2 (nth (lo + half) q (0,0)) (nth j q (0,0))) by (apply sorted_nth; auto; lia). unfold lt2 in *. lia.
    + apply IH; auto; try lia.
      * intros j Hj. destruct (Nat.eq_dec j (lo + half)); [subst; auto|].
        assert (lt2 (nth j q (0,0)) (nth (lo + half) q (0,0))) by (apply sorted_nth; auto; lia). unfold lt2 in *. lia.
      * intros j Hj. apply HH. lia.
Qed.

Lemma nth_skip {A} (l : list A) n j d : nth j (skipn n l) d = nth (n + j) l d.
Proof. revert l. induction n as [|n IH]; intros l; auto. destruct l; cbn; auto. destruct j; auto. Qed.
(* the specification of a lookup: the last run starting at or before i *)
Lemma linear_nth q i p : (p <= length q)%nat ->
  (forall j, (j < p)%nat -> fst (nth j q (0,0)) <= i) -> (forall j, (p <= j < length q)%nat -> i < fst (nth j q (0,0))) ->
  linear (rev q) i = match p with O => 0 | S p' => snd (nth p' q (0,0)) end.
Proof.
  intros L H1 H2. replace (rev q) with (rev (skipn p q) ++ rev (firstn p q)) by (rewrite <- rev_app_distr, firstn_skipn; auto). rewrite linear_app.
  replace (existsb _ (rev (skipn p q))) with false.
  2:{ symmetry. apply not_true_iff_false. intros E. apply existsb_exists in E. destruct E as (e & I & E).
      apply in_rev in I. apply (In_nth _ _ (0,0)) in I. destruct I as (n & Ln & <-).
      rewrite skipn_length in Ln. rewrite nth_skip in E. specialize (H2 (p + n)%nat ltac:(lia)). lia. }
  destruct p as [|p']; [reflexivity|].
  assert (Ep : nth p' q (0,0) = nth p' (firstn (S p') q) (0,0)).
  { rewrite <- (firstn_skipn (S p') q) at 1. rewrite app_nth1; auto. rewrite firstn_length. lia. }
  specialize (H1 p' ltac:(lia)).
  assert (LL : length (firstn (S p') q) = S p') by (rewrite firstn_length; lia).
  set (fq := firstn (S p') q) in *. clearbody fq. destruct (@exists_last _ fq) as (l & a & ->); [destruct fq; [cbn in LL; lia|discriminate]|].
  rewrite app_length in LL. cbn in LL. rewrite app_nth2 in Ep by lia. replace (p' - length l)%nat with O in Ep by lia. cbn in Ep.
  rewrite rev_unit. rewrite <- Ep. cbn. destruct (nth p' q (0,0)) as [x t]. cbn in *. destruct (Z.leb_spec x i); [auto|lia].
Qed.

Theorem get_term_linear q i : tsorted q -> tm_get_term q i = linear (rev q) i.
Proof.
  intros SQ. unfold tm_get_term. destruct q as [|e0 q0] eqn:EQ; [reflexivity|]. rewrite <- EQ in *.
  assert (NE : q <> []) by (rewrite EQ; discriminate). clear EQ e0 q0.
  destruct (exists_last NE) as (q' & b & ->). rewrite last_last.
  destruct (Z.leb_spec (fst b) i) as [C|C].
  - rewrite rev_unit. cbn. destruct b as [x t]. cbn in *. destruct (Z.leb_spec x i); [auto|lia].
  - destruct (Nat.ltb _ _); [reflexivity|]. set (q := q' ++ [b]) in *.
    destruct (ub_loop_spec q i SQ (length q) 0 (length q)) as (A & B & D); try lia.
    fold (upper_bound q i) in A, B, D. rewrite (linear_nth q i (upper_bound q i) A B D). reflexivity.
Qed.

(* ---- the invariant tying a table to its reference ---- *)
Fixpoint mono (p : Z) (l : list Z) : Prop := match l with [] => True | t :: l' => p <= t /\ mono t l' end.
Record TM (q : tmap) (x : tref) : Prop := {
  tm_sorted : tsorted q;
  tm_look : forall j t, nth_error (r_terms x) j = Some t -> linear (rev q) (r_first x + Z.of_nat j) = t;
  tm_below : forall i t, In (i, t) q -> i < r_first x -> t <= r_prev x;
  tm_last : forall i t, In (i, t) q -> i <= r_last x;
  tm_start : forall i t, In (i, t) q -> r_first x <= i -> nth_error (r_terms x) (Z.to_nat (i - r_first x)) = Some t;
  tm_mono : mono (r_prev x) (r_terms x);
  tm_pos : Forall (fun t => 0 < t) (r_terms x)
}.

Lemma last_cons_d {A} (t : A) l p : last (t :: l) p = last l t.
Proof. revert t. induction l as [|a l IH]; intros t; auto. cbn [last] in *. destruct l; auto. Qed.
Lemma mono_app p l l' : mono p (l ++ l') <-> mono p l /\ mono (last l p) l'.
Proof.
  revert p. induction l as [|t l IH]; intros p; cbn [app mono]; [cbn; tauto|]. rewrite IH.
  replace (last (t :: l) p) with (last l t); [tauto|]. symmetry. apply last_cons_d.
Qed.
Lemma mono_last p l : mono p l -> p <= last l p.
Proof. revert p. induction l as [|a l IH]; intros p H; cbn [mono] in H; [cbn; lia|]. rewrite last_cons_d. destruct H. specialize (IH a H0). lia. Qed.
Lemma mono_nth p l : mono p l -> forall j t, nth_error l j = Some t -> p <= t /\ t <= last l p.
Proof.
  revert p. induction l as [|a l IH]; intros p M j t E; [destruct j; discriminate|]. destruct M as [H1 H2].
  rewrite last_cons_d. destruct j as [|j]; cbn in E.
  - injection E as <-. split; auto. apply mono_last; auto.
  - destruct (IH a H2 j t E). lia.
Qed.

Lemma last_in {A} (q : list A) d : q <> [] -> In (last q d) q.
Proof. intros N. destruct (exists_last N) as (q' & b & ->). rewrite last_last. apply in_or_app. right. left. auto. Qed.

Lemma tm_append_ok q x t : TM q x -> map_legal x (MAppend t) ->
  exists q', tm_append q (r_last x + 1) t = Some q' /\ TM q' (ref_step x (MAppend t)).
Proof.
  intros [S LK BL LS ST MO PO] [Ht Hl].
  assert (LEN : r_last (ref_step x (MAppend t)) = r_last x + 1) by (unfold r_last; cbn; rewrite app_length; cbn; lia).
  assert (RL : r_last x + 1 = r_first x + Z.of_nat (length (r_terms x))) by (unfold r_last; lia).
  assert (BACK : q <> [] -> fst (last q (0,0)) <= r_last x /\ snd (last q (0,0)) <= t).
  { intros N. pose proof (last_in q (0,0) N) as I. destruct (last q (0,0)) as [i tb]. cbn. split; [eauto|].
    destruct (Z_lt_ge_dec i (r_first x)).
    - apply BL in I; auto. pose proof (mono_last _ _ MO). lia.
    - apply ST in I; [|lia]. destruct (mono_nth _ _ MO _ _ I). lia. }
  assert (G : forall q', tsorted q' -> (forall i u, In (i, u) q' -> In (i, u) q \/ (i = r_last x + 1 /\ u = t)) ->
             (forall i, i <= r_last x -> linear (rev q') i = linear (rev q) i) -> linear (rev q') (r_last x + 1) = t ->
             TM q' (ref_step x (MAppend t))).
  { intros q' S' IN L1 L2. constructor; auto.
    - intros j u E. cbn in E |- *. destruct (Nat.lt_ge_cases j (length (r_terms x))) as [L|L].
      + rewrite nth_error_app1 in E by auto. rewrite L1 by (unfold r_last; lia). auto.
      + rewrite nth_error_app2 in E by auto. destruct (j - length (r_terms x))%nat as [|[|]] eqn:D; cbn in E; try discriminate.
        injection E as <-. replace (r_first x + Z.of_nat j) with (r_last x + 1) by lia. auto.
    - intros i u I L. cbn in *. destruct (IN _ _ I) as [J|[-> ->]]; eauto. unfold r_last in L. lia.
    - intros i u I. rewrite LEN. destruct (IN _ _ I) as [J|[-> ->]]; [apply LS in J|]; lia.
    - intros i u I L. cbn in *. destruct (IN _ _ I) as [J|[-> ->]].
      + pose proof (LS _ _ J). rewrite nth_error_app1; auto. unfold r_last in *. lia.
      + rewrite nth_error_app2 by lia. replace (Z.to_nat (r_last x + 1 - r_first x) - length (r_terms x))%nat with O by lia. auto.
    - cbn. apply mono_app. split; auto. cbn. auto.
    - cbn. apply Forall_app. auto. }
  unfold tm_append. destruct q as [|e0 q0] eqn:EQ.
  - eexists. split; [reflexivity|]. apply G.
    + repeat constructor.
    + intros i u [E|[]]. inversion E. auto.
    + intros i L. cbn. destruct (Z.leb_spec (r_last x + 1) i); [lia|auto].
    + cbn. rewrite Z.leb_refl. auto.
  - rewrite <- EQ in *. assert (N : q <> []) by (rewrite EQ; discriminate). clear EQ.
    destruct (BACK N) as [B1 B2].
    replace ((r_last x + 1 <=? fst (last q (0, 0))) || (t <? snd (last q (0, 0)))) with false by lia.
    destruct (Z.eqb_spec t (snd (last q (0,0)))) as [E|NE]; cbn [negb].
    + exists q. split; auto. apply G; auto. destruct (exists_last N) as (q' & b & ->). rewrite last_last in *.
      rewrite rev_unit. destruct b as [i tb]. cbn in *. destruct (Z.leb_spec i (r_last x + 1)); lia.
    + eexists. split; [reflexivity|]. apply G.
      * apply tsorted_snoc; auto. intros [i u] I. unfold lt2. cbn. split; [apply LS in I; lia|].
        destruct (exists_last N) as (q' & b & E). rewrite E in *. rewrite last_last in *.
        destruct (tsorted_app _ _ S) as (_ & _ & C). apply in_app_or in I. destruct I as [I|[->|[]]].
        -- specialize (C (i,u) b I (or_introl eq_refl)). unfold lt2 in C. cbn in C. lia.
        -- cbn in *. lia.
      * intros i u I. apply in_app_or in I. destruct I as [I|[E|[]]]; auto. inversion E. auto.
      * intros i L. rewrite rev_unit. cbn. destruct (Z.leb_spec (r_last x + 1) i); [lia|auto].
      * rewrite rev_unit. cbn. rewrite Z.leb_refl. auto.
Qed.

Lemma num_pop_split q k : (num_pop q k <= length q)%nat /\ (forall j, (j < num_pop q k)%nat -> fst (nth j q (0,0)) <= k).
Proof.
  induction q as [|[i t] q IH]; cbn; [split; [lia|intros; lia]|]. destruct (Z.leb_spec i k); cbn; [|split; [lia|intros; lia]].
  destruct IH as [A B]. split; [lia|]. intros [|j] L; cbn; auto. apply B. lia.
Qed.
Lemma skipn_in {A} n (l : list A) x : In x (skipn n l) -> In x l.
Proof. intros I. rewrite <- (firstn_skipn n l). apply in_or_app. auto. Qed.
Lemma skipn_sorted n q : tsorted q -> tsorted (skipn n q).
Proof. intros S. rewrite <- (firstn_skipn n q) in S. apply tsorted_app in S. tauto. Qed.

Lemma trunc_prefix_look q k i : k <= i -> linear (rev (tm_truncate_prefix q k)) i = linear (rev q) i.
Proof.
  intros L. unfold tm_truncate_prefix. destruct q as [|e q]; auto.
  destruct (num_pop_split q k) as [A B]. set (n := num_pop q k) in *. destruct n as [|n]; [reflexivity|].
  rewrite <- (firstn_skipn (S n) (e :: q)) at 2. rewrite rev_app_distr, linear_app.
  replace (existsb _ _) with true; auto. symmetry. apply existsb_exists.
  exists (nth n q (0,0)). split; [|specialize (B n ltac:(lia)); lia].
  apply -> in_rev. cbn [skipn].
  rewrite <- (firstn_skipn n q) at 1. rewrite app_nth2 by (rewrite firstn_length; lia).
  rewrite firstn_length. replace (n - Nat.min n (length q))%nat with O by lia.
  apply nth_In. rewrite skipn_length. lia.
Qed.

Lemma last_firstn_ge p l n : mono p l -> forall m, (m <= n)%nat -> last (firstn m l) p <= last (firstn n l) p.
Proof.
  intros M m L. rewrite <- (firstn_skipn m (firstn n l)).
  assert (MM : mono p (firstn n l)) by (rewrite <- (firstn_skipn n l) in M; apply mono_app in M; tauto).
  rewrite <- (firstn_skipn m (firstn n l)) in MM. apply mono_app in MM. destruct MM as [_ MM].
  rewrite firstn_firstn in *. replace (Nat.min m n) with m in * by lia.
  apply mono_last in MM. set (a := firstn m l) in *. set (b := skipn m (firstn n l)) in *.
  destruct b as [|y b]; [rewrite app_nil_r; lia|]. 
  replace (last (a ++ y :: b) p) with (last (y :: b) (last a p)); auto.
  clear. revert p. induction a as [|z a IH]; intros p; auto. rewrite <- app_comm_cons. rewrite !(last_cons_d z).  apply IH.
Qed.
Lemma nth_error_firstn {A} (l : list A) n j : (j < n)%nat -> nth_error (firstn n l) j = nth_error l j.
Proof. revert n j. induction l as [|a l IH]; intros [|n] [|j] L; cbn; auto; try lia. apply IH. lia. Qed.
Lemma nth_error_skipn {A} (l : list A) n j : nth_error (skipn n l) j = nth_error l (n + j).
Proof. revert l. induction n as [|n IH]; intros l; auto. destruct l; cbn; auto. destruct j; auto. Qed.

Lemma tm_prefix_ok q x k : TM q x -> r_first x < k -> TM (tm_truncate_prefix q k) (ref_step x (MTruncPrefix k)).
Proof.
  intros [S LK BL LS ST MO PO] L. cbn. destruct (Z.leb_spec k (r_first x)); [lia|].
  set (n := Z.to_nat (k - r_first x)).
  assert (IN : forall e, In e (tm_truncate_prefix q k) -> In e q).
  { intros e. unfold tm_truncate_prefix. destruct q as [|a q]; auto. apply skipn_in. }
  assert (M2 : mono (last (firstn n (r_terms x)) (r_prev x)) (skipn n (r_terms x))).
  { rewrite <- (firstn_skipn n (r_terms x)) in MO. apply mono_app in MO. tauto. }
  constructor; cbn.
  - unfold tm_truncate_prefix. destruct q; auto. apply skipn_sorted; auto.
  - intros j t E. rewrite nth_error_skipn in E. rewrite trunc_prefix_look by lia.
    replace (k + Z.of_nat j) with (r_first x + Z.of_nat (n + j)) by lia. auto.
  - intros i t I Li. apply IN in I. destruct (Z_lt_ge_dec i (r_first x)).
    + apply BL in I; auto. pose proof (last_firstn_ge _ _ n MO 0 ltac:(lia)) as Q. cbn in Q. lia.
    + apply ST in I; [|lia]. set (j := Z.to_nat (i - r_first x)) in *.
      assert (E2 : nth_error (firstn n (r_terms x)) j = Some t) by (rewrite nth_error_firstn; auto; lia).
      assert (mono (r_prev x) (firstn n (r_terms x))) by (rewrite <- (firstn_skipn n (r_terms x)) in MO; apply mono_app in MO; tauto).
      destruct (mono_nth _ _ H0 _ _ E2). auto.
  - intros i t I. apply IN in I. apply LS in I. unfold r_last in *. cbn. rewrite skipn_length. lia.
  - intros i t I Li. apply IN in I. apply ST in I; [|lia]. rewrite nth_error_skipn.
    replace (n + Z.to_nat (i - k))%nat with (Z.to_nat (i - r_first x)) by lia. auto.
  - exact M2.
  - rewrite <- (firstn_skipn n (r_terms x)) in PO. apply Forall_app in PO. tauto.
Qed.

Lemma pop_back_look rq k i : i <= k -> linear (pop_back rq k) i = linear rq i.
Proof. intros L. induction rq as [|[a t] rq IH]; cbn; auto. destruct (Z.ltb_spec k a); auto. rewrite IH. destruct (Z.leb_spec a i); [lia|auto]. Qed.
Lemma pop_back_split rq k : exists a, rq = a ++ pop_back rq k /\ (pop_back rq k = [] \/ exists e r, pop_back rq k = e :: r /\ fst e <= k).
Proof.
  induction rq as [|[i t] rq IH]; cbn; [exists []; auto|]. destruct (Z.ltb_spec k i).
  - destruct IH as (a & E & C). exists ((i,t) :: a). cbn. rewrite <- E. auto.
  - exists []. split; auto. right. exists (i,t), rq. auto.
Qed.
Lemma tm_suffix_in q k : tsorted q -> tsorted (tm_truncate_suffix q k) /\ forall e, In e (tm_truncate_suffix q k) -> In e q /\ fst e <= k.
Proof.
  intros S. unfold tm_truncate_suffix. destruct (pop_back_split (rev q) k) as (a & E & C).
  assert (EQ : q = rev (pop_back (rev q) k) ++ rev a) by (rewrite <- rev_app_distr, <- E, rev_involutive; auto).
  split; [rewrite EQ in S; apply tsorted_app in S; tauto|]. intros e I. split; [rewrite EQ; apply in_or_app; auto|].
  destruct C as [Z0|(b & r & Eb & Lb)].
  - rewrite Z0 in I. destruct I.
  - rewrite Eb in I, EQ. cbn in I, EQ. apply in_app_or in I. destruct I as [I|[->|[]]]; auto.
    rewrite EQ, <- app_assoc in S. apply tsorted_app in S. destruct S as (_ & _ & S). specialize (S e b I (or_introl eq_refl)). unfold lt2 in S. lia.
Qed.
Lemma tm_suffix_ok q x k : TM q x -> r_first x - 1 <= k -> TM (tm_truncate_suffix q k) (ref_step x (MTruncSuffix k)).
Proof.
  intros [S LK BL LS ST MO PO] L. destruct (tm_suffix_in q k S) as [S' IN].
  assert (LOOK : forall i, i <= k -> linear (rev (tm_truncate_suffix q k)) i = linear (rev q) i).
  { intros i Li. unfold tm_truncate_suffix. rewrite rev_involutive. apply pop_back_look. auto. }
  cbn. destruct (Z.leb_spec (r_last x) k).
  - constructor; auto.
    + intros j t E. rewrite LOOK; auto. assert (j < length (r_terms x))%nat by (apply nth_error_Some; congruence). unfold r_last in *. lia.
    + intros i t I. apply IN in I. destruct I. eauto.
    + intros i t I. apply IN in I. destruct I. eauto.
    + intros i t I. apply IN in I. destruct I. eauto.
  - set (n := Z.to_nat (k + 1 - r_first x)). assert (LN : length (firstn n (r_terms x)) = n) by (rewrite firstn_length; unfold r_last in *; lia).
    constructor; auto; cbn.
    + intros j t E. assert (j < n)%nat by (rewrite <- LN; apply nth_error_Some; congruence). rewrite LOOK by lia.
      rewrite nth_error_firstn in E by auto. auto.
    + intros i t I. apply IN in I. destruct I. eauto.
    + intros i t I. apply IN in I. destruct I as [I Li]. unfold r_last. cbn [r_first r_terms]. rewrite LN. cbn in Li. lia.
    + intros i t I Li. apply IN in I. destruct I as [I Lk]. cbn in Lk. rewrite nth_error_firstn by lia. auto.
    + rewrite <- (firstn_skipn n (r_terms x)) in MO. apply mono_app in MO. tauto.
    + rewrite <- (firstn_skipn n (r_terms x)) in PO. apply Forall_app in PO. tauto.
Qed.

Lemma tm_empty f p : TM [] (mk_tref f p []).
Proof. constructor; cbn; try tauto; try constructor. intros [|j] t E; discriminate. Qed.

Lemma map_step_ok q x o : TM q x -> map_legal x o -> exists q', map_step q x o = Some q' /\ TM q' (ref_step x o).
Proof.
  intros I L. destruct o; cbn [map_step].
  - apply tm_append_ok; auto.
  - destruct (Z.leb_spec k (r_first x)).
    + eexists. split; [reflexivity|]. cbn. destruct (Z.leb_spec k (r_first x)); [auto|lia].
    + eexists. split; [reflexivity|]. apply tm_prefix_ok; auto.
  - eexists. split; [reflexivity|]. apply tm_suffix_ok; auto.
  - eexists. split; [reflexivity|]. apply tm_empty.
Qed.

Lemma TM_get q x : TM q x -> forall j t, nth_error (r_terms x) j = Some t -> tm_get_term q (r_first x + Z.of_nat j) = t.
Proof. intros I j t E. rewrite get_term_linear by apply I. apply I. auto. Qed.

Theorem map_run_terms : forall os f q x,
  maps_legal (mk_tref f 0 []) os -> map_run [] (mk_tref f 0 []) os = Some (q, x) ->
  forall j t, nth_error (r_terms x) j = Some t -> tm_get_term q (r_first x + Z.of_nat j) = t.
Proof.
  intros os f q x L R. apply TM_get.
  assert (G : forall os q0 x0 q x, TM q0 x0 -> maps_legal x0 os -> map_run q0 x0 os = Some (q, x) -> TM q x).
  { clear. induction os as [|o os IH]; cbn; intros q0 x0 q x I L R; [inversion R; subst; auto|].
    destruct L as [L1 L2]. destruct (map_step_ok q0 x0 o I L1) as (q' & E & I'). rewrite E in R. eauto. }
  eapply G; eauto. apply tm_empty.
Qed.
Theorem map_run_total : forall os f, maps_legal (mk_tref f 0 []) os -> exists r, map_run [] (mk_tref f 0 []) os = Some r.
Proof.
  intros os f L. assert (G : forall os q0 x0, TM q0 x0 -> maps_legal x0 os -> exists r, map_run q0 x0 os = Some r).
  { clear. induction os as [|o os IH]; cbn; intros q0 x0 I L; eauto.
    destruct L as [L1 L2]. destruct (map_step_ok q0 x0 o I L1) as (q' & E & I'). rewrite E. eauto. }
  apply G; auto. apply tm_empty.
Qed.
