(* The rows a plan returns, and their order. *)
From Coq Require Import List ZArith Lia Bool Sorted.
From Verif Require Import Common.Bytes Common.KV Key.Model Key.Spec Key.ProofsKey Key.ProofsTop.
From Verif Require Import Like.Model Like.Spec Path.Model Path.Spec Path.Scan Path.Hit Path.Tuples Path.Loop Path.Bounds Path.Plan Path.Good.
Import ListNotations.
Local Open Scope Z_scope.

Lemma nodup_flat {A B} (g : A -> list B) l : NoDup l -> (forall a, In a l -> NoDup (g a)) ->
  (forall a b x, In a l -> In b l -> In x (g a) -> In x (g b) -> a = b) -> NoDup (flat_map g l).
Proof.
  induction 1 as [|a l NI ND IH]; intros G D; cbn; [constructor|].
  assert (X : NoDup (flat_map g l)) by (apply IH; [intros; apply G; right; auto|intros b c x Hb Hc; apply D; right; auto]).
  specialize (G a (or_introl eq_refl)).
  assert (Y : forall x, In x (g a) -> ~ In x (flat_map g l)).
  { intros x Hx H. apply in_flat_map in H. destruct H as (b & Hb & H). apply NI. rewrite (D a b x); auto; [left|right]; auto. }
  clear - X G Y. induction (g a) as [|y q IH]; cbn; auto. inversion G; subst. constructor.
  - rewrite in_app_iff. intros [H|H]; [auto|]. apply (Y y); [left; auto|auto].
  - apply IH; auto. intros x Hx. apply Y. right; auto.
Qed.
Lemma sorted_nodup {A} (key : A -> list Z) l : key_sorted key l -> NoDup l.
Proof.
  induction 1 as [|x l S IH F]; constructor; auto. intros H. rewrite Forall_forall in F. apply F in H. rewrite bcompare_refl in H. discriminate.
Qed.

Section Read.
Variables (E : env).
Notation t_ := (ct E).
Notation key := (entry_key E).

Lemma fits_region_iff region k : fits_region region k = true <-> in_region region k.
Proof.
  unfold fits_region, in_region. destruct region as [[s e]|]; [|tauto]. rewrite andb_true_iff, orb_true_iff, bleb_le, bltb_lt, isnil. tauto.
Qed.
Lemma beqb_iff a b : beqb a b = true <-> a = b.
Proof. unfold beqb. rewrite <- bcompare_eq. destruct (bcompare a b); split; congruence. Qed.

(* one range *)
Lemma read_filter p region forward l rg : entries_ok E l ->
  exists b, read_range E p region forward l rg = (if p_get p || forward then filter b l else rev (filter b l)) /\
    forall r, In r l -> b r = true <-> covers p rg (key r) /\ in_region region (key r).
Proof.
  intros [SS F]. unfold read_range, covers. destruct (p_get p) eqn:G; cbn [orb].
  - exists (fun r => beqb (key r) (fst rg) && fits_region region (key r)). split; auto. intros r _. rewrite andb_true_iff, beqb_iff, fits_region_iff. tauto.
  - destruct rg as [a b]. cbn [fst snd]. exists (fun r => withinb (p_lopen p) (p_ropen p) a b region (key r)). split.
    + assert (K : Forall (fun r => key_ok (key r)) l) by (rewrite Forall_forall in *; intros r H; apply F; auto).
      destruct (iter_open (p_lopen p) (p_ropen p) (a, b) region) as [it|] eqn:Q.
      * destruct forward; [apply visit_forward|apply visit_backward]; auto.
      * assert (N : filter (fun r => withinb (p_lopen p) (p_ropen p) a b region (key r)) l = []).
        { clear - Q. induction l as [|x l IH]; cbn; auto. unfold withinb at 1. rewrite Q. auto. }
        rewrite N. destruct forward; auto.
    + intros r _. rewrite withinb_iff. unfold within. tauto.
Qed.
Lemma read_in p region forward l rg r : entries_ok E l ->
  In r (read_range E p region forward l rg) <-> In r l /\ covers p rg (key r) /\ in_region region (key r).
Proof.
  intros OK. destruct (read_filter p region forward l rg OK) as (b & -> & B).
  assert (X : In r (filter b l) <-> In r l /\ covers p rg (key r) /\ in_region region (key r)).
  { rewrite filter_In. split; intros [H1 H2]; split; auto; [apply B; auto|]. apply B; auto. }
  destruct (p_get p || forward); [|rewrite <- in_rev]; auto.
Qed.
Lemma read_nodup p region forward l rg : entries_ok E l -> NoDup (read_range E p region forward l rg).
Proof.
  intros OK. destruct (read_filter p region forward l rg OK) as (b & -> & _). destruct OK as [SS _]. apply sorted_nodup in SS.
  destruct (p_get p || forward); [|apply NoDup_rev]; apply NoDup_filter; auto.
Qed.

(* the conditions that are left *)
Lemma remaining_iff cut r : forall cs n, selected E (remaining n cs cut) r = true <->
  forall i c, nth_error cs i = Some c -> ~ In (n + i)%nat cut -> holds E r c = true.
Proof.
  unfold selected. induction cs as [|c cs IH]; intros n; cbn [remaining].
  - split; auto. intros _ i c H. destruct i; discriminate.
  - assert (SH : (forall i d, nth_error cs i = Some d -> ~ In (S n + i)%nat cut -> holds E r d = true) <->
                 (forall i d, nth_error (c :: cs) (S i) = Some d -> ~ In (n + S i)%nat cut -> holds E r d = true)).
    { split; intros H i d X Y; apply (H i d); auto; [replace (S n + i)%nat with (n + S i)%nat by lia|replace (n + S i)%nat with (S n + i)%nat by lia]; auto. }
    destruct (mem n cut) eqn:M.
    + rewrite IH, SH. split.
      * intros H [|i] d X Y; [|apply (H i); auto]. rewrite Nat.add_0_r in Y. apply mem_iff in M. contradiction.
      * intros H i d. apply H.
    + cbn. rewrite andb_true_iff, IH, SH. split.
      * intros [H1 H2] [|i] d X Y; [injection X as <-; auto|apply (H2 i); auto].
      * intros H. split; [apply (H 0%nat); auto; rewrite Nat.add_0_r; apply mem_not; auto|]. intros i d. apply H.
Qed.
Lemma selected_iff cs r : selected E cs r = true <-> forall i c, nth_error cs i = Some c -> holds E r c = true.
Proof.
  unfold selected. rewrite forallb_forall. split.
  - intros H i c X. apply H. eapply nth_error_In; eauto.
  - intros H c X. apply In_nth_error in X. destruct X as [i X]. eauto.
Qed.

Variables (cs : list cond) (order : list nat) (p : plan).
Hypothesis (Q : query_ok E cs) (P : plan_for E order cs = Some p).

Lemma the_good : exists m D rest rows T g inb, good E cs m order p D rest rows T g inb.
Proof.
  destruct Q as (OK & AP & LF & BA). unfold plan_for in P. destruct (hit_all E 0 cs (fun _ => None)) as [m|] eqn:H; [|discriminate]. injection P as <-.
  exists m. apply plan_good; auto. apply (hit_all_inv E cs OK AP cs [] (fun _ => None)); auto. intros f fr _ X. discriminate.
Qed.

Lemma answer_in region forward l r : entries_ok E l ->
  In r (answer E cs p region forward l) <-> In r l /\ selected E cs r = true /\ in_region region (key r).
Proof.
  intros EO. destruct the_good as (m & D & rest & rows & T & g & inb & G). unfold answer. rewrite filter_In, in_flat_map.
  assert (IR : In r l -> index_row E r) by (destruct EO as [_ F]; rewrite Forall_forall in F; intros H; apply F; auto).
  split.
  - intros [(rg & R1 & R2) S]. apply read_in in R2; auto. destruct R2 as (L & C & RG). specialize (IR L). split; auto. split; auto.
    destruct (g_1 _ _ _ _ _ _ _ _ _ _ _ G rg R1) as (t & Ht & ->). apply (g_cover _ _ _ _ _ _ _ _ _ _ _ G t r Ht IR) in C. destruct C as [C1 C2].
    apply selected_iff. intros i c X. destruct (in_dec Nat.eq_dec i (p_cut p)) as [H|H].
    + apply (g_cut _ _ _ _ _ _ _ _ _ _ _ G i c r t); auto.
    + rewrite remaining_iff in S. apply (S i c); auto.
  - intros (L & S & RG). specialize (IR L). split.
    + destruct (ti_sound _ _ _ _ _ _ (g_tinv _ _ _ _ _ _ _ _ _ _ _ G) r IR S (choice E cs r) (choice_ok E cs (proj1 Q) r S)) as (k & t & X & A & _).
      apply nth_error_In in X. exists (g t). split; [apply (g_2 _ _ _ _ _ _ _ _ _ _ _ G); auto|]. apply read_in; auto. split; auto. split; auto.
      apply (g_cover _ _ _ _ _ _ _ _ _ _ _ G t r X IR). split; auto. apply (g_sound _ _ _ _ _ _ _ _ _ _ _ G); auto.
    + apply remaining_iff. intros i c X _. rewrite selected_iff in S. eauto.
Qed.

Lemma answer_nodup region forward l : entries_ok E l -> NoDup (answer E cs p region forward l).
Proof.
  intros EO. destruct the_good as (m & D & rest & rows & T & g & inb & G). unfold answer. apply NoDup_filter.
  apply nodup_flat; [apply (g_3 _ _ _ _ _ _ _ _ _ _ _ G)|intros; apply read_nodup; auto|].
  intros a b r Ha Hb RA RB. apply read_in in RA, RB; auto. destruct RA as (L & CA & _), RB as (_ & CB & _).
  assert (IR : index_row E r) by (destruct EO as [_ F]; rewrite Forall_forall in F; apply F; auto).
  destruct (g_1 _ _ _ _ _ _ _ _ _ _ _ G a Ha) as (t & Ht & ->). destruct (g_1 _ _ _ _ _ _ _ _ _ _ _ G b Hb) as (u & Hu & ->).
  apply (g_cover _ _ _ _ _ _ _ _ _ _ _ G t r Ht IR) in CA. apply (g_cover _ _ _ _ _ _ _ _ _ _ _ G u r Hu IR) in CB.
  apply (g_4 _ _ _ _ _ _ _ _ _ _ _ G); auto.
  pose proof (g_tinv _ _ _ _ _ _ _ _ _ _ _ G) as TI. pose proof (ti_len _ _ _ _ _ _ TI) as TL. rewrite Forall_forall in TL.
  pose proof (ti_av _ _ _ _ _ _ TI) as DA. destruct CA as [CA _], CB as [CB _].
  apply agree_cmp in CA, CB; auto; try (rewrite <- (F2_len _ _ _ (TL _ Ht)); auto; fail); try (rewrite <- (F2_len _ _ _ (TL _ Hu)); auto; fail).
  assert (RO : Forall2 (okv E) D (rvals r D)) by (apply rvals_ok; auto).
  assert (KE : forall v, In v T -> cmpT E r D v = Eq -> tkey E D v = tkey E D (rvals r D)).
  { intros v Hv C. unfold tkey. f_equal. pose proof (tenc_compare (map t_ D) v (rvals r D) [] [] (okv_types E _ _ (TL _ Hv)) (okv_types E _ _ RO)) as K.
    unfold cmpT in C. rewrite C in K. cbn in K. rewrite !app_nil_r in K. apply bcompare_eq in K. auto. }
  rewrite (KE t), (KE u); auto.
Qed.

(* ---- the order ---- *)
Lemma order_app A B x y : order_of E (A ++ B) x y = match order_of E A x y with Eq => order_of E B x y | c => c end.
Proof.
  induction A as [|f A IH]; cbn; auto. destruct (x f), (y f); auto. destruct (value_compare (t_ f) v v0); auto.
Qed.
Lemma order_tuple A x y : index_row E x -> index_row E y -> incl A (avail E) -> order_of E A x y = tuple_compare (map t_ A) (rvals x A) (rvals y A).
Proof.
  intros X Y. induction A as [|f A IH]; intros N; cbn; auto.
  destruct (row_at E x f X) as [-> _]; [apply N; left; auto|]. destruct (row_at E y f Y) as [-> _]; [apply N; left; auto|].
  rewrite IH by (intros z Hz; apply N; right; auto). auto.
Qed.
Lemma order_eq_both A x y t : index_row E x -> index_row E y -> incl A (avail E) -> agree E x A t -> agree E y A t -> order_of E A x y = Eq.
Proof.
  intros X Y N AX. revert N. induction AX as [|f v A t (w & W1 & W2) AX IH]; intros N AY; cbn; auto.
  inversion AY as [|? ? ? ? (u & U1 & U2) AY']; subst. rewrite W1, U1.
  rewrite (vc_eq_trans _ w v u); auto; [|apply vc_eq_sym; auto]. apply IH; auto. intros z Hz. apply N. right; auto.
Qed.
Lemma find_le f l i : find_field f l = Some i -> (i < length l)%nat.
Proof.
  revert i. induction l as [|g l IH]; intros i; cbn; [discriminate|]. destruct (Nat.eqb g f); [intros [= <-]; lia|].
  destruct (find_field f l) as [j|]; [|discriminate]. intros [= <-]. specialize (IH j eq_refl). lia.
Qed.

Lemma key_order D rest t s x y : avail E = D ++ rest -> sort_use_index E order s = true -> n_eq s = length D ->
  index_row E x -> index_row E y -> agree E x D t -> agree E y D t -> bcompare (key x) (key y) = Lt -> order_of E order x y <> Gt.
Proof.
  intros AV SU NE X Y AX AY LT. unfold sort_use_index in SU. destruct order as [|f o] eqn:OO; [discriminate|]. rewrite <- OO in *.
  destruct (find_field f (sort_fields E)) as [i|] eqn:FF; [|discriminate]. apply andb_true_iff in SU. destruct SU as [S1 S2].
  apply Nat.leb_le in S1. apply Nat.eqb_eq in S2. rewrite NE in S1.
  destruct (run_split (skipn i (sort_fields E)) order) as (a & b & RA & _). rewrite S2, firstn_all in RA.
  assert (SF : exists extra, sort_fields E = avail E ++ extra).
  { unfold sort_fields, avail. destruct (e_type E).
    - exists []. rewrite !app_nil_r. auto.
    - exists (e_pk E). rewrite app_nil_r. auto.
    - exists []. rewrite app_nil_r. auto. }
  destruct SF as [extra SF]. rewrite SF, AV in RA. rewrite <- app_assoc, skipn_app in RA.
  replace (i - length D)%nat with O in RA by lia. cbn [skipn] in RA.
  assert (LK : order_of E (avail E) x y = Lt).
  { rewrite order_tuple by (auto using incl_refl). rewrite !entry_tenc in LT by auto. unfold tkey in LT. rewrite bcompare_app_same in LT.
    pose proof (tenc_compare (map t_ (avail E)) (rvals x (avail E)) (rvals y (avail E)) [] []
      (okv_types E _ _ (rvals_ok E x _ X (incl_refl _))) (okv_types E _ _ (rvals_ok E y _ Y (incl_refl _)))) as K.
    rewrite !app_nil_r in K. rewrite K in LT. cbn in LT. destruct (tuple_compare _ _ _); congruence. }
  assert (PRE : order_of E (firstn i D) x y = Eq).
  { apply (order_eq_both _ x y (firstn i t)); auto.
    - intros z Hz. rewrite AV. apply in_app_iff. left. rewrite <- (firstn_skipn i D). apply in_app_iff. auto.
    - unfold agree in *. clear - AX. revert i. induction AX; intros [|i]; cbn; constructor; auto.
    - unfold agree in *. clear - AY. revert i. induction AY; intros [|i]; cbn; constructor; auto. }
  rewrite AV in LK. rewrite <- (firstn_skipn i D), <- app_assoc, order_app, PRE in LK.
  assert (LO : order_of E (order ++ a) x y = Lt).
  { rewrite <- RA, app_assoc, order_app, LK. auto. }
  rewrite order_app in LO. destruct (order_of E order x y); congruence.
Qed.

Lemma answer_sorted region (forward : bool) l : entries_ok E l -> p_sort p = true -> (length (p_ranges p) <= 1)%nat ->
  StronglySorted (fun x y => if forward then order_of E order x y <> Gt else order_of E order y x <> Gt) (answer E cs p region forward l).
Proof.
  intros EO PS L1. destruct the_good as (m & D & rest & rows & T & g & inb & G). destruct (g_sort _ _ _ _ _ _ _ _ _ _ _ G) as (s & SS & NE).
  rewrite PS in SS. symmetry in SS. unfold answer. apply sorted_filter.
  destruct (p_ranges p) as [|rg [|]] eqn:R; [constructor| |cbn in L1; lia]. cbn [flat_map]. rewrite app_nil_r.
  assert (R1 : In rg (p_ranges p)) by (rewrite R; left; auto).
  destruct (g_1 _ _ _ _ _ _ _ _ _ _ _ G rg R1) as (t & Ht & ->).
  destruct (read_filter p region forward l (g t) EO) as (b & -> & B).
  assert (IR : forall r, In r l -> index_row E r) by (destruct EO as [_ F]; rewrite Forall_forall in F; intros r H; apply F; auto).
  assert (ORD : forall x y, In x l -> In y l -> b x = true -> b y = true -> bcompare (key x) (key y) = Lt -> order_of E order x y <> Gt).
  { intros x y Hx Hy Bx By LT. apply B in Bx, By; auto. destruct Bx as [Bx _], By as [By _].
    apply (g_cover _ _ _ _ _ _ _ _ _ _ _ G t x Ht (IR x Hx)) in Bx. apply (g_cover _ _ _ _ _ _ _ _ _ _ _ G t y Ht (IR y Hy)) in By.
    destruct Bx as [Bx _], By as [By _].
    apply (key_order D rest t s x y); auto. apply (g_avail _ _ _ _ _ _ _ _ _ _ _ G). }
  assert (SO : StronglySorted (fun x y => order_of E order x y <> Gt) (filter b l)).
  { destruct EO as [KS _]. clear - KS ORD. unfold key_sorted in KS. induction KS as [|x l S IH F]; cbn; [constructor|].
    assert (IH' : StronglySorted (fun x y => order_of E order x y <> Gt) (filter b l)) by (apply IH; intros u v Hu Hv; apply ORD; right; auto).
    destruct (b x) eqn:BX; auto. constructor; auto. rewrite Forall_forall in *. intros y Hy. apply filter_In in Hy. destruct Hy as [Hy BY].
    apply ORD; auto; [left|right]; auto. }
  destruct (p_get p) eqn:PG; cbn [orb].
  - (* one row at most *)
    assert (ONE : forall x y, In x (filter b l) -> In y (filter b l) -> x = y).
    { intros x y Hx Hy. apply filter_In in Hx, Hy. destruct Hx as [Hx Bx], Hy as [Hy By]. apply B in Bx, By; auto. destruct Bx as [Bx _], By as [By _].
      unfold covers in Bx, By. rewrite PG in *. assert (KE : key x = key y) by congruence. destruct EO as [KS _]. clear - KS Hx Hy KE.
      induction KS as [|z l S IH F]; [destruct Hx|]. rewrite Forall_forall in F.
      destruct Hx as [->|Hx], Hy as [->|Hy]; auto.
      - apply F in Hy. rewrite KE, bcompare_refl in Hy. discriminate.
      - apply F in Hx. rewrite KE, bcompare_refl in Hx. discriminate. }
    assert (ND : NoDup (filter b l)) by (apply NoDup_filter; destruct EO as [KS _]; eapply sorted_nodup; eauto).
    destruct (filter b l) as [|x [|y q]]; [constructor|repeat constructor|]. exfalso. inversion ND as [|? ? NI _]. apply NI. left. apply ONE; [right; left|left]; auto.
  - destruct forward; auto. apply sorted_rev in SO. auto.
Qed.
End Read.

Lemma no_plan E cs order r : query_ok E cs -> plan_for E order cs = None -> selected E cs r = false.
Proof.
  intros (OK & _) P. unfold plan_for in P. destruct (hit_all E 0 cs (fun _ => None)) eqn:H; [discriminate|]. eapply hit_all_none; eauto.
Qed.

(* what the conditions mean depends on the columns only *)
Lemma holds_env E1 E2 r c : (forall f, ct E1 f = ct E2 f) -> e_cs E1 = e_cs E2 -> holds E1 r c = holds E2 r c.
Proof.
  intros T C. assert (M : forall l, map (ct E1) l = map (ct E2) l) by (intros; apply map_ext; auto).
  destruct c as [o f k|f ks|o fs ks|fs kss|f [p|]|f h|h]; cbn; rewrite ?T, ?C, ?M; auto.
Qed.
Lemma selected_env E1 E2 cs r : (forall f, ct E1 f = ct E2 f) -> e_cs E1 = e_cs E2 -> selected E1 cs r = selected E2 cs r.
Proof. intros T C. unfold selected. induction cs as [|c cs IH]; cbn; auto. rewrite (holds_env E1 E2), IH; auto. Qed.

Lemma short_no_run k : (length k < 24)%nat -> no_ff_run k.
Proof. intros L (a & b & ->). rewrite !app_length, repeat_length in L. lia. Qed.

Lemma range_keys {A} (key : A -> list Z) lopen ropen left right region (forward : bool) l :
  key_sorted key l -> Forall (fun x => key_ok (key x)) l ->
  let out := match iter_open lopen ropen (left, right) region with Some it => visit key forward it l | None => [] end in
  (forall x, In x out <-> In x l /\ above lopen left (key x) /\ below ropen right (key x) /\ in_region region (key x)) /\
  StronglySorted (fun x y => if forward then bcompare (key x) (key y) = Lt else bcompare (key y) (key x) = Lt) out.
Proof.
  intros S K out.
  assert (O : out = if forward then filter (fun x => withinb lopen ropen left right region (key x)) l
                    else rev (filter (fun x => withinb lopen ropen left right region (key x)) l)).
  { unfold out. destruct (iter_open lopen ropen (left, right) region) as [it|] eqn:Q.
    - destruct forward; [apply visit_forward|apply visit_backward]; auto.
    - assert (N : filter (fun x => withinb lopen ropen left right region (key x)) l = []).
      { clear - Q. induction l as [|x l IH]; cbn; auto. unfold withinb at 1. rewrite Q. auto. }
      rewrite N. destruct forward; auto. }
  rewrite O. split.
  - intros x. assert (X : In x (filter (fun x => withinb lopen ropen left right region (key x)) l) <->
      In x l /\ above lopen left (key x) /\ below ropen right (key x) /\ in_region region (key x)).
    { rewrite filter_In, withinb_iff. unfold within. tauto. }
    destruct forward; [|rewrite <- in_rev]; auto.
  - assert (X : StronglySorted (fun x y => bcompare (key x) (key y) = Lt) (filter (fun x => withinb lopen ropen left right region (key x)) l)).
    { apply sorted_filter. auto. }
    destruct forward; auto. apply sorted_rev in X. auto.
Qed.
