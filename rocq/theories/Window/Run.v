(* Proofs: the functions over a partition. *)
From Coq Require Import List ZArith Bool Lia Sorting.Sorted.
From Verif Require Import Common.Bytes Key.Model Key.Spec Agg.Model Agg.Spec Agg.Lists Window.Model Window.Spec Window.Fn Window.Order Window.Rank.
Import ListNotations.
Local Open Scope Z_scope.

Section Run.
Variable keys : okeys.
Variable p : list row.
Variable f : wfn.
Hypothesis Ord : ordered keys p.
Hypothesis Sm : small_fn f p.
Hypothesis Hp : size p < 2 ^ 31.
Variable FR : nat -> row -> list row.

Definition column_from (k : nat) (vs : list (option wval)) : Prop :=
  forall j c v, nth_error p (k + j) = Some c -> nth_error vs j = Some v -> fn_spec keys p (k + j) c (FR (k + j)%nat c) f v.
Lemma column_cons k v vs c : nth_error p k = Some c -> fn_spec keys p k c (FR k c) f v -> column_from (S k) vs -> column_from k (v :: vs).
Proof.
  intros E V K [|j] c' v' A B.
  - injection B as <-. rewrite Nat.add_0_r in *. rewrite E in A. injection A as <-. exact V.
  - cbn in B. rewrite <- plus_n_Sm in *. apply (K j c' v'); assumption.
Qed.

Definition state_ok (k : nat) (called : bool) (i : inter) : Prop :=
  if rank_like f then rank_inv keys p f k (if called then Some p else None) i else shaped f i.

Lemma frames_ok m :
  (forall k c, nth_error p k = Some c -> exists s e, frame_at keys m p (Z.of_nat k) = Some (Z.of_nat s, Z.of_nat e) /\
     (s <= length p)%nat /\ (e <= length p)%nat /\ (rank_like f = true -> (s < e)%nat) /\ (rank_like f = false -> FR k c = between p (Z.of_nat s) (Z.of_nat e))) ->
  forall n k called i, (k + n)%nat = length p -> state_ok k called i ->
  exists i' vs, frames keys m f p (Z.of_nat k) n i = Some (i', vs) /\ shaped f i' /\ length vs = n /\ column_from k vs.
Proof.
  intros HF. induction n as [|n IH]; intros k called i L St.
  - exists i, []. split; [reflexivity|]. split; [|split; [reflexivity|]].
    + unfold state_ok in St. destruct (rank_like f); [apply rank_shaped in St; tauto|exact St].
    + intros [|j] c v A B; discriminate.
  - destruct (nth_some p k ltac:(lia)) as (c & E). destruct (HF k c E) as (s & e & F1 & F2 & F3 & F4 & F5).
    cbn [frames]. rewrite F1. destruct (Z.ltb_spec (Z.of_nat s) 0); [lia|]. destruct (Z.ltb_spec (Z.of_nat e) 0); [lia|]. cbn [orb].
    replace (Z.of_nat k + 1) with (Z.of_nat (S k)) by lia.
    unfold state_ok in St. destruct (rank_like f) eqn:R.
    + specialize (F4 eq_refl). destruct (rank_shaped keys p f k _ i St) as (_ & ->).
      destruct (Z.ltb_spec (Z.of_nat s) (Z.of_nat e)); [|lia].
      destruct (rank_call keys p f k _ i (Z.of_nat s) (Z.of_nat e) R Sm ltac:(lia) ltac:(lia) ltac:(unfold size; lia) St) as (i1 & -> & St1).
      destruct (rank_result keys p Ord f k i1 c (FR k c) R Sm Hp E St1) as (i2 & v & -> & St2 & V).
      destruct (IH (S k) true i2 ltac:(lia)) as (i3 & vs & -> & Sh & Lv & Cv); [unfold state_ok; rewrite R; exact St2|].
      exists i3, (v :: vs). split; [reflexivity|]. split; [exact Sh|]. split; [cbn; lia|]. apply (column_cons k v vs c E V Cv).
    + specialize (F5 eq_refl). rewrite (frame_init f i R St).
      assert (exists i1 v, (if Z.of_nat s <? Z.of_nat e then call f (initialize f) p (Z.of_nat s) (Z.of_nat e) else Some (initialize f)) = Some i1 /\
                shaped f i1 /\ get_result keys f i1 = Some (i1, v) /\ fn_spec keys p k c (FR k c) f v) as (i1 & v & -> & Sh & -> & V).
      { rewrite F5. destruct (Z.ltb_spec (Z.of_nat s) (Z.of_nat e)).
        - apply (call_value keys p f (Z.of_nat s) (Z.of_nat e) k c R Sm Hp); unfold size; lia.
        - rewrite between_none by lia. destruct (empty_value keys p f k c R) as (v & G & V).
          exists (initialize f), v. split; [reflexivity|]. split; [apply shaped_init|]. auto. }
      destruct (IH (S k) true i1 ltac:(lia)) as (i3 & vs & -> & Sh3 & Lv & Cv); [unfold state_ok; rewrite R; exact Sh|].
      exists i3, (v :: vs). split; [reflexivity|]. split; [exact Sh3|]. split; [cbn; lia|]. apply (column_cons k v vs c E V Cv).
Qed.

Lemma results_ok :
  (forall k c, rank_like f = false -> nth_error p k = Some c -> FR k c = p) -> p <> [] ->
  exists i' vs, run_fn keys NonFrame f (initialize f) p = Some (i', vs) /\ shaped f i' /\ length vs = length p /\ column_from 0 vs.
Proof.
  intros HF Np. assert (0 < size p) as L0 by (unfold size; destruct p; [congruence|cbn; lia]).
  unfold run_fn. rewrite (reset_init f _ (shaped_init f)).
  destruct (rank_like f) eqn:R.
  - destruct (rank_call keys p f 0 None (initialize f) 0 (size p) R Sm ltac:(lia) L0 ltac:(lia) (rank_start keys p Ord f R Sm Np)) as (i1 & -> & St).
    assert (forall n k i, (k + n)%nat = length p -> rank_inv keys p f k (Some p) i ->
      exists i' vs, results keys f n i = Some (i', vs) /\ shaped f i' /\ length vs = n /\ column_from k vs) as T.
    { induction n as [|n IH]; intros k i L St'.
      - exists i, []. split; [reflexivity|]. split; [apply rank_shaped in St'; tauto|]. split; [reflexivity|]. intros [|j] c v A B; discriminate.
      - destruct (nth_some p k ltac:(lia)) as (c & E). cbn [results].
        destruct (rank_result keys p Ord f k i c (FR k c) R Sm Hp E St') as (i2 & v & -> & St2 & V).
        destruct (IH (S k) i2 ltac:(lia) St2) as (i3 & vs & -> & Sh & Lv & Cv).
        exists i3, (v :: vs). split; [reflexivity|]. split; [exact Sh|]. split; [cbn; lia|]. apply (column_cons k v vs c E V Cv). }
    apply (T (length p) O i1); [reflexivity|exact St].
  - assert (exists c0, nth_error p 0 = Some c0) as (c0 & E0) by (apply nth_some; unfold size in L0; lia).
    destruct (call_value keys p f 0 (size p) 0 c0 R Sm Hp ltac:(lia) L0 ltac:(lia)) as (i1 & v & C & Sh & G & _).
    assert (forall k c, nth_error p k = Some c -> fn_spec keys p k c (FR k c) f v) as V.
    { intros k c E. rewrite (HF k c eq_refl E).
      destruct (call_value keys p f 0 (size p) k c R Sm Hp ltac:(lia) L0 ltac:(lia)) as (i2 & v2 & C2 & _ & G2 & V2).
      rewrite between_all in V2. congruence. }
    rewrite C.
    assert (forall n k, (k + n)%nat = length p ->
      exists vs, results keys f n i1 = Some (i1, vs) /\ length vs = n /\ column_from k vs) as T.
    { induction n as [|n IH]; intros k L.
      - exists []. split; [reflexivity|]. split; [reflexivity|]. intros [|j] c w A B; discriminate.
      - destruct (nth_some p k ltac:(lia)) as (c & E). cbn [results]. rewrite G.
        destruct (IH (S k) ltac:(lia)) as (vs & -> & Lv & Cv).
        exists (v :: vs). split; [reflexivity|]. split; [cbn; lia|]. apply (column_cons k v vs c E (V k c E) Cv). }
    destruct (T (length p) O eq_refl) as (vs & -> & Lv & Cv). exists i1, vs. auto.
Qed.
End Run.

(* ---- with the plan of the function or of another one ---- *)
Definition own_frame (s : wspec) (f : wfn) (m : mode) : Prop :=
  (rank_like f = true /\ (m = NonFrame \/ (s_frame s = None /\ mode_of (Some (sql_frame s)) = Some m))) \/
  (rank_like f = false /\ mode_of (Some (sql_frame s)) = Some m).

Lemma valid_bounds f s : check_valid f s = true -> bounds_ok (sql_frame s).
Proof.
  unfold check_valid, sql_frame. destruct (s_frame s) as [((ft, a), b)|].
  - rewrite !andb_true_iff. intros ((((_ & A) & B) & C) & _). cbn [bounds_ok].
    split; [intros ->; discriminate|]. split; [intros ->; discriminate|]. intros ->. apply andb_true_iff in C. destruct C as (C1 & C2).
    split; intros n; split; intros ->; discriminate.
  - intros _. cbn [bounds_ok]. split; [discriminate|]. split; [destruct (s_order s); discriminate|]. intros _.
    split; intros n; split; try discriminate; destruct (s_order s); discriminate.
Qed.
Lemma frame_small s p : small_frame s p -> small_nums p (sql_frame s).
Proof.
  unfold small_frame, sql_frame. destruct (s_frame s) as [((ft, a), b)|]; [auto|]. intros _. cbn [small_nums small_bound].
  destruct (s_order s); cbn; auto.
Qed.
Lemma frame_rows_all ft keys p k c : frame_rows (ft, UnboundedPreceding, UnboundedFollowing) keys p k c = p.
Proof.
  unfold frame_rows. rewrite (filter_ext _ (fun _ => true)) by (intros x; destruct ft; reflexivity).
  assert (forall (l : list (nat * row)), filter (fun _ => true) l = l) as -> by (induction l; cbn; congruence).
  unfold numbered. generalize O. induction p as [|x l IH]; intros a; [reflexivity|]. cbn. now rewrite IH.
Qed.

Lemma run_shaped keys m f i p : shaped f i -> run_fn keys m f i p = run_fn keys m f (initialize f) p.
Proof. intros K. unfold run_fn. now rewrite (reset_init f i K), (reset_init f _ (shaped_init f)). Qed.

Theorem run_ok s f m p i : check_valid f s = true -> own_frame s f m -> in_order (s_order s) p -> p <> [] -> size p < 2 ^ 31 ->
  small_fn f p -> small_frame s p -> shaped f i ->
  exists i' vs, run_fn (s_order s) m f i p = Some (i', vs) /\ shaped f i' /\ values_ok s f p vs.
Proof.
  intros V O Od Np Hp Sm Sf Sh. rewrite (run_shaped _ _ _ _ _ Sh).
  pose proof (in_order_nth _ _ Od) as Ord. pose proof (valid_bounds f s V) as Bo. pose proof (frame_small s p Sf) as Sn.
  set (FR := frame_rows (sql_frame s) (s_order s) p).
  assert (Rng : forall (a : sql_bound) k c, s_frame s = None -> mode_of (Some (sql_frame s)) = Some m -> m <> NonFrame -> nth_error p k = Some c ->
    exists s0 e0, frame_at (s_order s) m p (Z.of_nat k) = Some (Z.of_nat s0, Z.of_nat e0) /\ (s0 < e0)%nat /\ (e0 <= length p)%nat).
  { intros _ k c Fn M Nm E. unfold sql_frame in M. rewrite Fn in M. destruct (s_order s) as [|k0 ks] eqn:Ek; [injection M as <-; congruence|].
    rewrite <- Ek in *. injection M as <-.
    destruct (range_frame (s_order s) p Ord UnboundedPreceding CurrentRow _ _ k c E (or_introl eq_refl) (or_introl eq_refl) eq_refl eq_refl) as (s0 & e0 & E1 & E2 & L1 & L2 & L3 & _).
    exists s0, e0. cbn [frame_at]. rewrite E1, E2. split; [reflexivity|]. split; lia. }
  assert (T : exists i' vs, run_fn (s_order s) m f (initialize f) p = Some (i', vs) /\ shaped f i' /\ length vs = length p /\ column_from (s_order s) p f FR 0 vs).
  { assert (m = NonFrame \/ m <> NonFrame) as [-> | Nm] by (destruct m; [left|right|right]; congruence).
    - apply (results_ok (s_order s) p f Ord Sm Hp FR); [|exact Np].
      intros k c R E. destruct O as [(O & _)|(_ & O)]; [congruence|].
      assert (exists ft, sql_frame s = (ft, UnboundedPreceding, UnboundedFollowing)) as (ft & F).
      { destruct (sql_frame s) as ((ft, a), b). exists ft. unfold mode_of in O.
        destruct (plan_bound a) as [fa|], (plan_bound b) as [fb|]; destruct a, b; try reflexivity; try discriminate O; destruct ft; discriminate O. }
      unfold FR. rewrite F. apply frame_rows_all.
    - unfold run_fn. rewrite (reset_init f _ (shaped_init f)).
      assert (frames (s_order s) m f p 0 (length p) (initialize f) = match m with NonFrame => frames (s_order s) m f p 0 (length p) (initialize f) | _ => frames (s_order s) m f p 0 (length p) (initialize f) end) as Em by (destruct m; reflexivity).
      replace (match m with NonFrame => match call f (initialize f) p 0 (size p) with Some i0 => results (s_order s) f (length p) i0 | None => None end | _ => frames (s_order s) m f p 0 (length p) (initialize f) end)
        with (frames (s_order s) m f p 0 (length p) (initialize f)) by (destruct m; congruence).
      change 0 with (Z.of_nat 0). apply (frames_ok (s_order s) p f Ord Sm Hp FR m) with (called := false); [|reflexivity|].
      + intros k c E. destruct O as [(R & O)|(R & O)].
        * destruct O as [O|(Fn & O)]; [congruence|]. destruct (Rng UnboundedPreceding k c Fn O Nm E) as (s0 & e0 & K1 & K2 & K3).
          exists s0, e0. split; [exact K1|]. split; [lia|]. split; [exact K3|]. split; [auto|congruence].
        * destruct (mode_frame (s_order s) p Ord (sql_frame s) m k c E Hp Bo Sn O) as (s0 & e0 & K1 & K2 & K3 & K4).
          exists s0, e0. split; [exact K1|]. split; [exact K2|]. split; [exact K3|]. split; [congruence|auto].
      + unfold state_ok. destruct (rank_like f) eqn:R; [apply rank_start; assumption|apply shaped_init]. }
  destruct T as (i' & vs & T1 & T2 & T3 & T4). exists i', vs. split; [exact T1|]. split; [exact T2|]. split; [exact T3|].
  intros j c v A B. exact (T4 j c v A B).
Qed.
