(** * Proofs for [SaveModel]: the save point stacks implement the specification *)
From Coq Require Import List ZArith Lia Bool Arith Sorted.
From Verif.Txn Require Import SaveModel SaveSpec.
Import ListNotations.

Section Proofs.
Context {W : Type}.
Notation stmt := (stmt W).
Notation txn := (txn W).

(** ** Lists *)

Lemma mem_in n l : mem n l = true <-> In n l.
Proof.
  unfold mem. rewrite existsb_exists. split.
  - intros (x & Hx & E). apply Nat.eqb_eq in E. subst. exact Hx.
  - intros Hx. exists n. split; [exact Hx|]. apply Nat.eqb_refl.
Qed.

Lemma mem_false n l : mem n l = false <-> ~ In n l.
Proof. rewrite <- mem_in. destruct (mem n l); split; intros; congruence. Qed.

Lemma set_insert_in x l : forall y, In y (set_insert x l) <-> y = x \/ In y l.
Proof.
  induction l as [|z r IH]; intros y; cbn [set_insert].
  - cbn. intuition.
  - destruct (x <? z) eqn:E1; cbn [In]; [intuition|].
    destruct (x =? z) eqn:E2; cbn [In].
    + apply Nat.eqb_eq in E2. rewrite E2. intuition.
    + rewrite IH. intuition.
Qed.

Lemma to_set_in l : forall y, In y (to_set l) <-> In y l.
Proof.
  induction l as [|z r IH]; intros y; cbn; [reflexivity|].
  rewrite set_insert_in, IH. intuition.
Qed.

Lemma set_insert_last x l : Forall (fun y => y < x) l -> set_insert x l = l ++ [x].
Proof.
  induction 1 as [|z r Hz Hr IH]; [reflexivity|]. cbn [set_insert].
  replace (x <? z) with false by (symmetry; apply Nat.ltb_ge; lia).
  replace (x =? z) with false by (symmetry; apply Nat.eqb_neq; lia).
  rewrite IH. reflexivity.
Qed.

Lemma writes_app (a b : list stmt) : writes (a ++ b) = writes a ++ writes b.
Proof. unfold writes. rewrite map_app, concat_app. reflexivity. Qed.

Lemma rows_app (a b : list stmt) : rows (a ++ b) = (rows a + rows b)%Z.
Proof.
  unfold rows. induction a as [|x r IH]; cbn; [lia|]. rewrite IH. lia.
Qed.

(** ** Cached plans *)

Definition stm (p : list (nat * plan W)) : list stmt :=
  flat_map (fun e => match snd e with PStmt s => [s] | _ => [] end) p.

Definition keyed (p : list (nat * plan W)) : Prop :=
  Forall (fun e => match snd e with PStmt s => fst e = s_seq s | _ => True end) p.

Lemma stm_app a b : stm (a ++ b) = stm a ++ stm b.
Proof. unfold stm. apply flat_map_app. Qed.

Lemma stm_erase n p : keyed p ->
  stm (map_erase n p) = filter (fun s => negb (s_seq s =? n)) (stm p).
Proof.
  induction 1 as [|[k v] r Hk Hr IH]; [reflexivity|].
  cbn [map_erase filter fst snd] in *.
  change (stm ((k, v) :: r)) with ((match v with PStmt s => [s] | _ => [] end) ++ stm r).
  rewrite filter_app, <- IH.
  destruct (k =? n) eqn:E; cbn [negb].
  - destruct v as [| |s]; [reflexivity..|]. cbn. subst k. rewrite E. reflexivity.
  - change (stm ((k, v) :: filter (fun e => negb (fst e =? n)) r))
      with ((match v with PStmt s => [s] | _ => [] end) ++ stm (map_erase n r)).
    destruct v as [| |s]; [reflexivity..|]. cbn. subst k. rewrite E. reflexivity.
Qed.

Lemma keyed_erase n p : keyed p -> keyed (map_erase n p).
Proof.
  unfold keyed, map_erase. rewrite !Forall_forall. intros K e He.
  apply filter_In in He. apply K, He.
Qed.

Lemma map_insert_last n v p : Forall (fun e : nat * plan W => fst e < n) p ->
  map_insert n v p = p ++ [(n, v)].
Proof.
  induction 1 as [|[k w] r Hk Hr IH]; [reflexivity|]. cbn [map_insert fst] in *.
  replace (n <? k) with false by (symmetry; apply Nat.ltb_ge; lia).
  replace (n =? k) with false by (symmetry; apply Nat.eqb_neq; lia).
  rewrite IH. reflexivity.
Qed.

Lemma map_mem_false n p : Forall (fun e : nat * plan W => fst e < n) p -> map_mem n p = false.
Proof.
  induction 1 as [|[k w] r Hk Hr IH]; [reflexivity|]. cbn in *.
  replace (k =? n) with false by (symmetry; apply Nat.eqb_neq; lia). exact IH.
Qed.

Lemma sorted_filter (f : nat * plan W -> bool) p :
  StronglySorted lt (map fst p) -> StronglySorted lt (map fst (filter f p)).
Proof.
  induction p as [|e r IH]; cbn [map filter]; intros S0; [exact S0|].
  inversion S0 as [|? ? S1 S2]; subst. destruct (f e); [|auto]. cbn. constructor; [auto|].
  rewrite Forall_map in *. rewrite Forall_forall in *. intros x Hx. apply filter_In in Hx. apply S2, Hx.
Qed.

Lemma sorted_snoc l n : StronglySorted lt l -> Forall (fun k => k < n) l -> StronglySorted lt (l ++ [n]).
Proof.
  induction 1 as [|x r S0 IH Fx]; cbn; intros N; [repeat constructor|].
  inversion N; subst. constructor; [auto|]. apply Forall_app. split; auto.
Qed.

(** ** Invariant.  [rl] are the standing statements, newest first *)

Fixpoint rspr (rl : list stmt) : list (list W) :=
  match rl with [] => [] | _ :: r => writes (rev r) :: rspr r end.
Fixpoint srowsr (rl : list stmt) : list Z :=
  match rl with [] => [] | _ :: r => rows (rev r) :: srowsr r end.

Record shape (t : txn) (rl : list stmt) : Prop := mkShape {
  sh_seq : t_sseq t = map s_seq rl;
  sh_rsp : t_rsp t = rspr rl;
  sh_rows : t_srows t = srowsr rl;
  sh_desc : StronglySorted gt (map s_seq rl)
}.

Definition two (p : list (nat * plan W)) : Prop :=
  Forall (fun e => snd e = PBegin \/ 2 <= fst e) p.

Record inv (t : txn) (rl : list stmt) : Prop := mkInv {
  i_shape : shape t rl;
  i_batch : t_batch t = writes (rev rl);
  i_rows : t_rows t = rows (rev rl);
  i_stm : stm (t_plans t) = rev rl;
  i_keyed : keyed (t_plans t);
  i_keys : Forall (fun e => fst e <= t_seq t) (t_plans t);
  i_sorted : StronglySorted lt (map fst (t_plans t));
  i_le : Forall (fun s => s_seq s <= t_seq t) rl;
  i_one : 1 <= t_seq t;
  i_two : two (t_plans t)
}.

Lemma filter_id {A} (f : A -> bool) l : Forall (fun x => f x = true) l -> filter f l = l.
Proof. induction 1 as [|x r Hx Hr IH]; [reflexivity|]. cbn. rewrite Hx, IH. reflexivity. Qed.

Lemma inv_ext (t u : txn) rl :
  inv t rl -> t_sseq u = t_sseq t -> t_rsp u = t_rsp t -> t_srows u = t_srows t ->
  t_batch u = t_batch t -> t_rows u = t_rows t -> t_plans u = t_plans t ->
  t_seq t <= t_seq u -> inv u rl.
Proof.
  intros [[S1 S2 S3 S4] B R P K KS KO L O1 T2] E1 E2 E3 E4 E5 E6 E7. split.
  - split; congruence.
  - congruence.
  - congruence.
  - congruence.
  - congruence.
  - rewrite E6. eapply Forall_impl; [|exact KS]. cbn. lia.
  - congruence.
  - eapply Forall_impl; [|exact L]. cbn. lia.
  - lia.
  - congruence.
Qed.

(** Rolling back a number that is not among the standing statements below the top. *)
Lemma pop_point_top t s rl :
  shape t (s :: rl) ->
  let u := pop_point (s_seq s) (erase_plan (s_seq s) t) in
  shape u rl /\ t_batch u = writes (rev rl) /\ t_rows u = rows (rev rl) /\
  t_plans u = map_erase (s_seq s) (t_plans t) /\ t_seq u = t_seq t /\ t_req u = t_req t /\
  t_dml u = t_dml t /\ t_prepared u = t_prepared t.
Proof.
  intros [S1 S2 S3 S4]. unfold pop_point. cbn [erase_plan t_sseq t_rsp t_srows].
  rewrite S1, S2, S3. cbn [map rspr srowsr]. rewrite Nat.eqb_refl. cbn.
  repeat (split; [first [reflexivity|idtac]|]); try reflexivity.
  split; cbn; try reflexivity. cbn in S4. inversion S4; subst; assumption.
Qed.

Lemma pop_point_other t n rl :
  shape t rl -> (match rl with [] => True | s :: _ => s_seq s <> n end) ->
  pop_point n (erase_plan n t) = erase_plan n t.
Proof.
  intros [S1 S2 S3 S4] N. unfold pop_point. cbn [erase_plan t_sseq t_rsp t_srows].
  rewrite S1, S2, S3. destruct rl as [|s r]; [reflexivity|]. cbn [map rspr srowsr].
  replace (s_seq s =? n) with false by (symmetry; apply Nat.eqb_neq; exact N). reflexivity.
Qed.

Lemma inv_rollback_top t s rl : inv t (s :: rl) -> inv (rollback_to_point t (s_seq s)) rl.
Proof.
  intros [Sh B R P K KS KO L O1 T2]. unfold rollback_to_point.
  pose proof (pop_point_top t s rl Sh) as H0. cbn zeta in H0.
  set (u := pop_point (s_seq s) (erase_plan (s_seq s) t)) in *. clearbody u.
  destruct H0 as (U1 & U2 & U3 & U4 & U5 & U6 & _).
  destruct Sh as [S1 S2 S3 S4].
  assert (N : Forall (fun x => s_seq x <> s_seq s) rl).
  { cbn in S4. inversion S4 as [|a b Q1 Q2]; subst. rewrite Forall_map in Q2.
    eapply Forall_impl; [|exact Q2]. cbn. lia. }
  split; auto.
  - rewrite U4, (stm_erase _ _ K), P. cbn [rev]. rewrite filter_app. cbn [filter].
    rewrite Nat.eqb_refl. cbn [negb]. rewrite app_nil_r. apply filter_id.
    apply Forall_rev. eapply Forall_impl; [|exact N]. cbn.
    intros x Hx. apply negb_true_iff, Nat.eqb_neq. exact Hx.
  - rewrite U4. apply keyed_erase, K.
  - rewrite U4, U5. unfold map_erase. rewrite Forall_forall in *. intros e He.
    apply filter_In in He. apply KS, He.
  - rewrite U4. apply sorted_filter, KO.
  - rewrite U5. inversion L; assumption.
  - lia.
  - rewrite U4. unfold two, map_erase in *. rewrite Forall_forall in *. intros e He.
    apply filter_In in He. apply T2, He.
Qed.

Lemma inv_rollback_absent t n rl :
  inv t rl -> Forall (fun s => s_seq s <> n) rl -> inv (rollback_to_point t n) rl.
Proof.
  intros I N. unfold rollback_to_point. rewrite (pop_point_other t n rl (i_shape _ _ I)).
  2:{ destruct N; auto. }
  destruct I as [[S1 S2 S3 S4] B R P K KS KO L O1 T2]. split; cbn; auto.
  - split; assumption.
  - rewrite (stm_erase _ _ K), P. apply filter_id. apply Forall_rev.
    eapply Forall_impl; [|exact N]. cbn. intros x Hx. apply negb_true_iff, Nat.eqb_neq. exact Hx.
  - apply keyed_erase, K.
  - unfold map_erase. rewrite Forall_forall in *. intros e He.
    apply filter_In in He. apply KS, He.
  - apply sorted_filter, KO.
  - unfold two, map_erase in *. rewrite Forall_forall in *. intros e He.
    apply filter_In in He. apply T2, He.
Qed.

Lemma rollback_to_point_seq (t : txn) n : t_seq (rollback_to_point t n) = t_seq t /\
  t_req (rollback_to_point t n) = t_req t.
Proof.
  unfold rollback_to_point, pop_point. cbn [erase_plan t_sseq t_rsp t_srows].
  destruct (t_sseq t), (t_srows t), (t_rsp t); auto. destruct (n0 =? n); auto.
Qed.

Lemma fold_rollback ns : forall t rl,
  inv t rl ->
  (match rl with [] => True | _ :: r => Forall (fun s => ~ In (s_seq s) ns) r end) ->
  let u := fold_left rollback_to_point ns t in
  inv u (drop ns rl) /\ t_seq u = t_seq t /\ t_req u = t_req t.
Proof.
  induction ns as [|n ns IH]; intros t rl I N; cbn zeta.
  - cbn. split; [|auto]. unfold drop. rewrite filter_id; [exact I|].
    apply Forall_forall. intros. reflexivity.
  - cbn [fold_left].
    destruct (rollback_to_point_seq t n) as (E1 & E2).
    assert (D : exists rl', inv (rollback_to_point t n) rl' /\
        (match rl' with [] => True | _ :: r => Forall (fun s => ~ In (s_seq s) ns) r end) /\
        drop ns rl' = drop (n :: ns) rl).
    { destruct rl as [|s r].
      - exists []. split; [apply inv_rollback_absent; auto|]. split; auto.
      - assert (N' : Forall (fun s => ~ In (s_seq s) ns) r).
        { eapply Forall_impl; [|exact N]. cbn. tauto. }
        assert (Nn : Forall (fun s => s_seq s <> n) r).
        { eapply Forall_impl; [|exact N]. cbn. intuition. }
        assert (Dr : drop ns r = drop (n :: ns) r).
        { unfold drop. apply filter_ext_in. intros x Hx. cbn.
          rewrite Forall_forall in Nn. specialize (Nn x Hx).
          replace (s_seq x =? n) with false by (symmetry; apply Nat.eqb_neq; exact Nn). reflexivity. }
        destruct (Nat.eq_dec (s_seq s) n) as [E|E].
        + exists r. subst n. split; [apply inv_rollback_top; exact I|].
          split; [destruct r; auto; inversion N'; auto|].
          rewrite Dr. unfold drop at 2. cbn [filter existsb]. rewrite Nat.eqb_refl. reflexivity.
        + exists (s :: r). split; [apply inv_rollback_absent; auto|]. split; auto.
          unfold drop at 1 2. cbn [filter existsb].
          replace (s_seq s =? n) with false by (symmetry; apply Nat.eqb_neq; exact E).
          cbn [orb]. unfold drop in Dr. rewrite Dr. reflexivity. }
    destruct D as (rl' & I' & N' & D). specialize (IH _ _ I' N'). cbn zeta in IH.
    rewrite D, E1, E2 in IH. exact IH.
Qed.

Lemma drop_ext a b (rl : list stmt) : (forall n, In n a <-> In n b) -> drop a rl = drop b rl.
Proof.
  intros E. unfold drop. apply filter_ext. intros s. f_equal.
  change (mem (s_seq s) a = mem (s_seq s) b).
  destruct (mem (s_seq s) a) eqn:A, (mem (s_seq s) b) eqn:B; auto.
  - apply mem_in in A. apply mem_false in B. rewrite E in A. tauto.
  - apply mem_false in A. apply mem_in in B. rewrite E in A. tauto.
Qed.

Lemma rollback_list_inv bad t rl :
  inv t rl ->
  (match rl with [] => True | _ :: r => Forall (fun s => ~ In (s_seq s) bad) r end) ->
  inv (rollback_list bad t) (drop bad rl) /\
  t_seq (rollback_list bad t) = t_seq t /\ t_req (rollback_list bad t) = t_req t.
Proof.
  intros I N. unfold rollback_list.
  assert (E : forall n, In n (rev (to_set bad)) <-> In n bad).
  { intros n. rewrite <- in_rev. apply to_set_in. }
  rewrite (drop_ext bad (rev (to_set bad))) by (intros; symmetry; apply E).
  apply fold_rollback; [exact I|].
  destruct rl as [|s r]; auto. eapply Forall_impl; [|exact N]. cbn. intros a Ha. rewrite E. exact Ha.
Qed.

Lemma drop_id bad (rl : list stmt) : Forall (fun s => ~ In (s_seq s) bad) rl -> drop bad rl = rl.
Proof.
  intros H. apply filter_id. eapply Forall_impl; [|exact H]. cbn. intros s Hs.
  apply negb_true_iff. apply mem_false in Hs. exact Hs.
Qed.

Lemma drop_forall bad (rl : list stmt) : Forall (fun s => ~ In (s_seq s) bad) (drop bad rl).
Proof.
  apply Forall_forall. intros s Hs. apply filter_In in Hs. destruct Hs as (_ & Hs).
  apply negb_true_iff in Hs. apply mem_false. exact Hs.
Qed.

Lemma drop_rev bad (rl : list stmt) : drop bad (rev rl) = rev (drop bad rl).
Proof.
  unfold drop. induction rl as [|s r IH]; [reflexivity|]. cbn [rev filter].
  rewrite filter_app, IH. cbn [filter].
  destruct (negb _); cbn; [reflexivity|apply app_nil_r].
Qed.

Lemma drop_app bad (a b : list stmt) : drop bad (a ++ b) = drop bad a ++ drop bad b.
Proof. apply filter_app. Qed.

Lemma drop_incl bad (rl : list stmt) (P : stmt -> Prop) : Forall P rl -> Forall P (drop bad rl).
Proof.
  rewrite !Forall_forall. intros H s Hs. apply filter_In in Hs. apply H, Hs.
Qed.

(** ** Inside a request: [pushed] are the statements run so far (oldest first),
    [base] those that stood before (newest first) *)
Record mid (first : nat) (base : list stmt) (pushed : list stmt) (t : txn) : Prop := mkMid {
  m_inv : inv t (rev pushed ++ base);
  m_req : t_req t = first :: map s_seq pushed;
  m_base : Forall (fun s => s_seq s <= first) base;
  m_pushed : Forall (fun s => first < s_seq s) pushed;
  m_keys : Forall (fun e => fst e <= first \/ In (fst e) (map s_seq pushed)) (t_plans t);
  m_seq : t_seq t = last (map s_seq pushed) first;
  m_first : 1 <= first
}.

Lemma undo_req_spec first : forall pushed base t,
  shape t (rev pushed ++ base) -> Forall (fun s => first < s_seq s) pushed ->
  pushed <> [] ->
  let u := undo_req first (rev (first :: map s_seq pushed)) t in
  shape u base /\ t_batch u = writes (rev base) /\ t_rows u = rows (rev base) /\
  t_plans u = filter (fun e => negb (mem (fst e) (map s_seq pushed))) (t_plans t) /\
  t_dml u = t_dml t /\ t_prepared u = t_prepared t.
Proof.
  induction pushed as [|s p IH] using rev_ind; intros base t Sh F N; [congruence|].
  cbn zeta. cbn [rev]. rewrite map_app, rev_app_distr. cbn [map rev app undo_req].
  apply Forall_app in F. destruct F as (F1 & F2). inversion F2 as [|? ? F3 _]; subst.
  replace (s_seq s =? first) with false by (symmetry; apply Nat.eqb_neq; lia).
  rewrite rev_app_distr in Sh. cbn [rev app] in Sh.
  pose proof (pop_point_top t s _ Sh) as U. cbn zeta in U.
  set (u := pop_point (s_seq s) (erase_plan (s_seq s) t)) in *. clearbody u.
  destruct U as (U1 & U2 & U3 & U4 & U5 & U6 & U7 & U8).
  destruct p as [|x p].
  - cbn. rewrite Nat.eqb_refl. cbn in U1, U2, U3. split; auto. split; auto. split; auto.
    split; [|auto]. rewrite U4. unfold map_erase. apply filter_ext. intros e. f_equal.
    cbn. rewrite orb_false_r. reflexivity.
  - specialize (IH base u U1 F1 ltac:(discriminate)). cbn zeta in IH. cbn [rev] in IH.
    destruct IH as (A & B & C & D & E1 & E2). split; [exact A|]. split; [exact B|]. split; [exact C|].
    split; [|split; congruence].
    rewrite D, U4. unfold map_erase.
    rewrite (filter_ext (fun e => negb (mem (fst e) (map s_seq (x :: p) ++ [s_seq s])))
      (fun e => negb (fst e =? s_seq s) && negb (mem (fst e) (map s_seq (x :: p))))).
    2:{ intros e. unfold mem. rewrite existsb_app. cbn [existsb]. rewrite orb_false_r, negb_orb, andb_comm. reflexivity. }
    clear. induction (t_plans t) as [|e r IH]; [reflexivity|]. cbn [filter].
    destruct (negb (fst e =? s_seq s)); cbn [filter andb]; rewrite IH; reflexivity.
Qed.

(** Undoing the current request restores the statements that stood before it. *)
Lemma undo_spec first base pushed t :
  shape t (rev pushed ++ base) ->
  t_req t = first :: map s_seq pushed ->
  Forall (fun s => s_seq s <= first) base ->
  Forall (fun s => first < s_seq s) pushed ->
  pushed <> [] ->
  keyed (t_plans t) -> StronglySorted lt (map fst (t_plans t)) ->
  Forall (fun e => fst e <= first \/ In (fst e) (map s_seq pushed)) (t_plans t) ->
  filter (fun s => negb (mem (s_seq s) (map s_seq pushed))) (stm (t_plans t)) = rev base ->
  1 <= first -> two (t_plans t) ->
  let u := rollback_current_request t in
  inv u base /\ t_seq u = first /\ t_req u = [first] /\
  t_dml u = t_dml t /\ t_prepared u = t_prepared t.
Proof.
  intros Sh Rq B P N K KO KS ST O1 T2. cbn zeta. unfold rollback_current_request. rewrite Rq.
  destruct pushed as [|x p]; [congruence|]. cbn [map].
  pose proof (undo_req_spec first (x :: p) base t Sh P N) as U. cbn zeta in U. cbn [map] in U.
  set (u := undo_req first (rev (first :: s_seq x :: map s_seq p)) t) in *. clearbody u.
  destruct U as (U1 & U2 & U3 & U4 & U5 & U6).
  split; [|auto]. destruct U1 as [S1 S2 S3 S4].
  split; cbn; auto.
  - split; auto.
  - rewrite U4. cbn [map] in ST. rewrite <- ST. clear - K.
    induction K as [|[k v] r Hk Hr IH]; [reflexivity|]. cbn [fst snd filter] in *.
    change (stm ((k, v) :: r)) with ((match v with PStmt s => [s] | _ => [] end) ++ stm r).
    rewrite filter_app, <- IH.
    destruct (negb (mem k (s_seq x :: map s_seq p))) eqn:E.
    + change (stm ((k, v) :: filter (fun e => negb (mem (fst e) (s_seq x :: map s_seq p))) r))
        with ((match v with PStmt s => [s] | _ => [] end)
              ++ stm (filter (fun e => negb (mem (fst e) (s_seq x :: map s_seq p))) r)).
      destruct v as [| |s]; [reflexivity..|]. subst k. cbn [filter]. rewrite E. reflexivity.
    + destruct v as [| |s]; [reflexivity..|]. subst k. cbn [filter]. rewrite E. reflexivity.
  - rewrite U4. unfold keyed in *. rewrite Forall_forall in *. intros e He. apply filter_In in He. apply K, He.
  - rewrite U4. rewrite Forall_forall in *. intros e He. apply filter_In in He.
    destruct He as (He & M). apply negb_true_iff, mem_false in M. cbn [map] in KS.
    destruct (KS e He); [assumption|tauto].
  - rewrite U4. apply sorted_filter, KO.
  - rewrite U4. unfold two in *. rewrite Forall_forall in *. intros e He.
    apply filter_In in He. apply T2, He.
Qed.

Definition undoable (first : nat) (base : list stmt) (t : txn) : Prop :=
  let u := rollback_current_request t in
  inv u base /\ t_seq u = first /\ t_req u = [first].

Lemma filter_rev_none (f : stmt -> bool) l : Forall (fun s => f s = false) l -> filter f l = [].
Proof. induction 1 as [|x r Hx Hr IH]; [reflexivity|]. cbn. rewrite Hx. exact IH. Qed.

Lemma stm_minus_pushed first (base pushed : list stmt) :
  Forall (fun s => s_seq s <= first) base -> Forall (fun s => first < s_seq s) pushed ->
  filter (fun s : stmt => negb (mem (s_seq s) (map s_seq pushed))) (rev base) = rev base.
Proof.
  intros B P. apply filter_id, Forall_rev. rewrite Forall_forall in *. intros s Hs.
  apply negb_true_iff, mem_false. intros Hin. apply in_map_iff in Hin.
  destruct Hin as (x & E & Hx). specialize (B s Hs). specialize (P x Hx). lia.
Qed.

Lemma mid_undoable first base pushed t : mid first base pushed t -> undoable first base t.
Proof.
  intros [I Rq B P KS Sq M1]. unfold undoable. cbn zeta. destruct pushed as [|x p].
  - unfold rollback_current_request. rewrite Rq. cbn in *. auto.
  - pose proof (undo_spec first base (x :: p) t (i_shape _ _ I) Rq B P ltac:(discriminate)
      (i_keyed _ _ I) (i_sorted _ _ I) KS) as U. cbn zeta in U.
    destruct U as (U1 & U2 & U3 & _); [|exact M1|exact (i_two _ _ I)|auto].
    rewrite (i_stm _ _ I), rev_app_distr, rev_involutive, filter_app.
    rewrite (stm_minus_pushed first) by assumption.
    rewrite filter_rev_none; [apply app_nil_r|].
    apply Forall_forall. intros s Hs. apply negb_false_iff, mem_in. apply in_map, Hs.
Qed.

Lemma last_snoc (l : list nat) x d : last (l ++ [x]) d = x.
Proof. induction l as [|y r IH]; [reflexivity|]. cbn. destruct (r ++ [x]) eqn:E; [destruct r; discriminate|exact IH]. Qed.

Lemma rspr_cons s (rl : list stmt) : rspr (s :: rl) = writes (rev rl) :: rspr rl.
Proof. reflexivity. Qed.

Lemma rollback_list_none bad t first base pushed :
  mid first base pushed t -> Forall (fun s => ~ In (s_seq s) bad) (rev pushed ++ base) ->
  mid first base pushed (rollback_list bad t).
Proof.
  intros [I Rq B P KS Sq M1] G.
  destruct (rollback_list_inv bad t _ I) as (I' & E1 & E2).
  { destruct (rev pushed ++ base); auto. inversion G; auto. }
  rewrite drop_id in I' by exact G.
  split; auto; try congruence.
  unfold rollback_list. clear - KS. revert t KS.
  induction (rev (to_set bad)) as [|n ns IH]; intros t KS; [exact KS|]. cbn [fold_left]. apply IH.
  unfold rollback_to_point, pop_point. cbn [erase_plan t_sseq t_rsp t_srows].
  assert (Q : Forall (fun e => fst e <= first \/ In (fst e) (map s_seq pushed)) (map_erase n (t_plans t))).
  { rewrite Forall_forall in *. intros e He. apply filter_In in He. apply KS, He. }
  destruct (t_sseq t), (t_srows t), (t_rsp t); auto. destruct (n0 =? n); exact Q.
Qed.

(** The state after [set_seq_id] and [set_save_point] for a fresh number. *)
Lemma save_point_spec first base pushed t (s : stmt) :
  mid first base pushed t -> t_seq t < s_seq s ->
  let u := set_save_point (set_seq_id (s_seq s) t) in
  shape u (s :: rev pushed ++ base) /\
  t_seq u = s_seq s /\ t_batch u = t_batch t /\ t_rows u = t_rows t /\
  t_plans u = t_plans t /\ t_req u = first :: map s_seq (pushed ++ [s]) /\
  first < s_seq s.
Proof.
  intros [I Rq B P KS Sq M1] Lt. cbn zeta.
  assert (Fs : first < s_seq s).
  { rewrite Sq in Lt. clear - Lt P. destruct pushed as [|x p] using rev_ind; [exact Lt|].
    rewrite map_app in Lt. cbn in Lt. rewrite last_snoc in Lt.
    apply Forall_app in P. destruct P as (_ & P). inversion P; subst. lia. }
  unfold set_seq_id. replace (s_seq s <? t_seq t) with false by (symmetry; apply Nat.ltb_ge; lia).
  destruct I as [[S1 S2 S3 S4] Ba R Pl K KSq KO L O1 T2].
  unfold set_save_point. cbn [t_seq t_sseq].
  assert (E : (match t_sseq t with [] => true | top :: _ => top <? s_seq s end) = true).
  { rewrite S1. destruct (rev pushed ++ base) as [|x r] eqn:E; [reflexivity|]. cbn.
    apply Nat.ltb_lt. inversion L; subst. lia. }
  cbv zeta. rewrite E. cbn.
  split.
  - split; cbn.
    + rewrite S1. reflexivity.
    + rewrite Ba, S2. reflexivity.
    + rewrite R, S3. reflexivity.
    + constructor; [exact S4|]. rewrite Forall_map. eapply Forall_impl; [|exact L]. cbn. lia.
  - repeat (split; [reflexivity|]). split; [|exact Fs].
    rewrite Rq, map_app. cbn [map]. rewrite set_insert_last; [reflexivity|].
    constructor; [exact Fs|].
    assert (PL : Forall (fun x => s_seq x < s_seq s) pushed).
    { apply Forall_app in L. destruct L as (L & _).
      rewrite <- (rev_involutive pushed). apply Forall_rev.
      eapply Forall_impl; [|exact L]. cbn. lia. }
    rewrite Forall_map. exact PL.
Qed.

(** A save point has been set for [s], its writes are in doubt. *)
Lemma open_undoable first base pushed t (s : stmt) u :
  mid first base pushed t -> t_seq t < s_seq s ->
  shape u (s :: rev pushed ++ base) -> t_req u = first :: map s_seq (pushed ++ [s]) ->
  t_plans u = t_plans t -> undoable first base u.
Proof.
  intros M Lt Sh Rq Pl.
  destruct (save_point_spec first base pushed t s M Lt) as (_ & _ & _ & _ & _ & _ & Fs).
  destruct M as [I Rq0 B P KS Sq M1].
  pose proof (undo_spec first base (pushed ++ [s]) u) as U. cbn zeta in U.
  rewrite rev_app_distr in U. cbn [rev app] in U.
  assert (N : pushed ++ [s] <> []) by (destruct pushed; discriminate).
  assert (P' : Forall (fun s => first < s_seq s) (pushed ++ [s])) by (apply Forall_app; auto).
  specialize (U Sh Rq B P' N). rewrite Pl in U.
  specialize (U (i_keyed _ _ I) (i_sorted _ _ I)).
  destruct U as (U1 & U2 & U3 & _); [| |exact M1|exact (i_two _ _ I)|unfold undoable; auto].
  - eapply Forall_impl; [|exact KS]. cbn. intros e [Q|Q]; [auto|]. right. rewrite map_app. apply in_or_app. auto.
  - rewrite (i_stm _ _ I), rev_app_distr, rev_involutive, filter_app.
    rewrite (stm_minus_pushed first) by assumption.
    rewrite filter_rev_none; [apply app_nil_r|].
    apply Forall_forall. intros x Hx. apply negb_false_iff, mem_in. rewrite map_app.
    apply in_or_app. left. apply in_map, Hx.
Qed.

Lemma commit_mid first base pushed t (s : stmt) u :
  mid first base pushed t -> t_seq t < s_seq s ->
  shape u (s :: rev pushed ++ base) -> t_seq u = s_seq s ->
  t_batch u = t_batch t ++ s_w s -> t_rows u = (t_rows t + s_rows s)%Z ->
  t_plans u = t_plans t ++ [(s_seq s, PStmt s)] ->
  t_req u = first :: map s_seq (pushed ++ [s]) ->
  mid first base (pushed ++ [s]) u.
Proof.
  intros M Lt Sh Sq Ba R Pl Rq.
  destruct (save_point_spec first base pushed t s M Lt) as (_ & _ & _ & _ & _ & _ & Fs).
  destruct M as [[S0 Ba0 R0 Pl0 K0 KS0 KO0 L0 O1 T2] Rq0 B P KS Sq0 M1].
  split; auto.
  - rewrite rev_app_distr. cbn [rev app]. split; auto.
    + cbn [rev]. rewrite Ba, Ba0, writes_app. unfold writes at 3. cbn. rewrite app_nil_r. reflexivity.
    + cbn [rev]. rewrite R, R0, rows_app. unfold rows at 3. cbn. lia.
    + cbn [rev]. rewrite Pl, stm_app, Pl0. reflexivity.
    + rewrite Pl. apply Forall_app. split; [exact K0|]. repeat constructor.
    + rewrite Pl, Sq. apply Forall_app. split; [|repeat constructor].
      eapply Forall_impl; [|exact KS0]. cbn. lia.
    + rewrite Pl, map_app. cbn. apply sorted_snoc; [exact KO0|].
      rewrite Forall_map. eapply Forall_impl; [|exact KS0]. cbn. lia.
    + rewrite Sq. constructor; [lia|]. eapply Forall_impl; [|exact L0]. cbn. lia.
    + lia.
    + rewrite Pl. apply Forall_app. split; [exact T2|]. constructor; [|constructor]. right. cbn. lia.
  - apply Forall_app. auto.
  - rewrite Pl. apply Forall_app. split.
    + eapply Forall_impl; [|exact KS]. cbn. intros e [Q|Q]; [auto|]. right. rewrite map_app. apply in_or_app. auto.
    + constructor; [|constructor]. right. cbn. rewrite map_app. apply in_or_app. right. cbn. auto.
  - rewrite map_app. cbn. rewrite last_snoc. exact Sq.
Qed.

Lemma set_seq_id_same n (t : txn) : t_seq t = n -> set_seq_id n t = t.
Proof. intros <-. unfold set_seq_id. rewrite Nat.ltb_irrefl. destruct t; reflexivity. Qed.

Lemma push_cmd_fresh n v (t : txn) :
  Forall (fun e => fst e < n) (t_plans t) ->
  push_cmd n v t = mkT n (t_batch t) (t_rsp t) (t_sseq t) (t_srows t) (t_req t)
           (t_plans t ++ [(n, v)]) (t_rows t)
           (t_dml t || match v with PBegin => false | _ => true end) (t_prepared t).
Proof. intros Q. unfold push_cmd. rewrite map_mem_false, map_insert_last by exact Q. reflexivity. Qed.

Lemma mid_keys_lt first base pushed t n : mid first base pushed t -> t_seq t < n ->
  Forall (fun e => fst e < n) (t_plans t).
Proof. intros M Lt. eapply Forall_impl; [|exact (i_keys _ _ (m_inv _ _ _ _ M))]. cbn. lia. Qed.

Lemma shape_ext (t u : txn) rl : shape t rl -> t_sseq u = t_sseq t -> t_rsp u = t_rsp t ->
  t_srows u = t_srows t -> shape u rl.
Proof. intros [A B C D] E1 E2 E3. split; congruence. Qed.

Lemma dml_spec bad f first base pushed t (s : stmt) :
  mid first base pushed t -> Forall (fun s => ~ In (s_seq s) bad) (rev pushed ++ base) ->
  t_seq t < s_seq s -> ~ In (s_seq s) bad ->
  match f with
  | None => exists u, dml_2pc bad f s t = (u, true) /\ mid first base (pushed ++ [s]) u
  | Some _ => exists u, dml_2pc bad f s t = (u, false) /\ undoable first base u
  end.
Proof.
  intros M G Lt Nb.
  pose proof (rollback_list_none bad t first base pushed M G) as M'.
  assert (E : t_seq (rollback_list bad t) = t_seq t).
  { rewrite (m_seq _ _ _ _ M'), (m_seq _ _ _ _ M). reflexivity. }
  unfold dml_2pc. rewrite (proj2 (mem_false _ _) Nb). cbn zeta.
  set (r := rollback_list bad t) in *. clearbody r.
  assert (Lt' : t_seq r < s_seq s) by lia.
  pose proof (save_point_spec first base pushed r s M' Lt') as Sp. cbn zeta in Sp.
  set (v := set_save_point (set_seq_id (s_seq s) r)) in *. clearbody v.
  destruct Sp as (V1 & V2 & V3 & V4 & V5 & V6 & V7).
  destruct f as [junk|].
  - eexists. split; [reflexivity|].
    apply (open_undoable first base pushed r s); auto.
    eapply shape_ext; [exact V1|reflexivity..].
  - eexists. split; [reflexivity|].
    rewrite set_seq_id_same by exact V2.
    rewrite push_cmd_fresh.
    2:{ cbn [add_writes t_plans]. rewrite V5. eapply mid_keys_lt; eassumption. }
    apply (commit_mid first base pushed r s); cbn [add_rows add_writes t_seq t_batch t_rows t_plans t_req]; auto.
    + eapply shape_ext; [exact V1|reflexivity..].
    + congruence.
    + rewrite V4. reflexivity.
    + rewrite V5. reflexivity.
Qed.

Lemma for_update_spec bad (ok : bool) n first base pushed t :
  mid first base pushed t -> Forall (fun s => ~ In (s_seq s) bad) (rev pushed ++ base) ->
  t_seq t < n ->
  if ok then exists u, for_update bad ok n t = (u, true) /\ mid first base (pushed ++ [mkS n [] 0]) u
  else exists u, for_update bad ok n t = (u, false) /\ undoable first base u.
Proof.
  intros M G Lt.
  pose proof (rollback_list_none bad t first base pushed M G) as M'.
  assert (E : t_seq (rollback_list bad t) = t_seq t).
  { rewrite (m_seq _ _ _ _ M'), (m_seq _ _ _ _ M). reflexivity. }
  unfold for_update. cbn zeta.
  set (r := rollback_list bad t) in *. clearbody r.
  assert (Lt' : t_seq r < s_seq (mkS n (@nil W) 0)) by (cbn; lia).
  pose proof (save_point_spec first base pushed r (mkS n [] 0) M' Lt') as Sp. cbn zeta in Sp. cbn [s_seq] in Sp.
  set (v := set_save_point (set_seq_id n r)) in *. clearbody v.
  destruct Sp as (V1 & V2 & V3 & V4 & V5 & V6 & V7).
  destruct ok.
  - eexists. split; [reflexivity|].
    rewrite push_cmd_fresh.
    2:{ rewrite V5. eapply mid_keys_lt; [exact M'|]. cbn in Lt'. exact Lt'. }
    apply (commit_mid first base pushed r (mkS n [] 0)); cbn [t_seq t_batch t_rows t_plans t_req s_seq s_w s_rows]; auto.
    + eapply shape_ext; [exact V1|reflexivity..].
    + rewrite app_nil_r. congruence.
    + rewrite Z.add_0_r. congruence.
    + rewrite V5. reflexivity.
  - eexists. split; [reflexivity|].
    apply (open_undoable first base pushed r (mkS n [] 0)); auto.
Qed.

Definition okb (e : env W) (s : stmt) : bool :=
  match e_fail e (s_seq s) with None => true | _ => false end.

Lemma run_cached_spec lst bad e first base : forall cs pushed t,
  mid first base pushed t -> Forall (fun s => ~ In (s_seq s) bad) (rev pushed ++ base) ->
  Forall (fun s => ~ In (s_seq s) bad) cs ->
  Forall (fun s => lst < s_seq s -> t_seq t < s_seq s) cs ->
  increasing (map s_seq cs) ->
  let ran := filter (fun c => lst <? s_seq c) cs in
  if forallb (okb e) ran
  then exists u, run_cached lst bad e cs t = (u, true) /\ mid first base (pushed ++ ran) u
       /\ t_seq u = last (map s_seq ran) (t_seq t)
  else exists u, run_cached lst bad e cs t = (u, false) /\ undoable first base u.
Proof.
  induction cs as [|c r IH]; intros pushed t M G NB LT INC; cbn zeta.
  - cbn. exists t. rewrite app_nil_r. auto.
  - inversion NB as [|? ? NB1 NB2]; subst. inversion LT as [|? ? LT1 LT2]; subst.
    cbn [map increasing] in INC. destruct INC as (INC1 & INC2).
    cbn [filter run_cached].
    destruct (lst <? s_seq c) eqn:E.
    + apply Nat.ltb_lt in E.
      replace (s_seq c <=? lst) with false by (symmetry; apply Nat.leb_gt; exact E).
      cbn [forallb]. unfold okb at 1.
      pose proof (dml_spec bad (e_fail e (s_seq c)) first base pushed t c M G (LT1 E) NB1) as D.
      destruct (e_fail e (s_seq c)) as [junk|]; destruct D as (u & D & Q); rewrite D.
      * exists u. split; [reflexivity|exact Q].
      * cbn [andb].
        assert (Su : t_seq u = s_seq c).
        { rewrite (m_seq _ _ _ _ Q), map_app. cbn. apply last_snoc. }
        specialize (IH (pushed ++ [c]) u Q).
        assert (G' : Forall (fun s => ~ In (s_seq s) bad) (rev (pushed ++ [c]) ++ base)).
        { rewrite rev_app_distr. cbn. constructor; auto. }
        assert (LT' : Forall (fun s => lst < s_seq s -> t_seq u < s_seq s) r).
        { rewrite Su. clear - INC1 INC2. rewrite Forall_forall. intros x Hx _.
          revert INC1 INC2. generalize (s_seq c). induction r as [|y q IH]; [destruct Hx|].
          intros k K1 (K2 & K3). cbn in *. destruct Hx as [->|Hx]; [exact K1|].
          apply (IH Hx k); [|exact K3]. destruct (map s_seq q); [exact Logic.I|lia]. }
        specialize (IH G' NB2 LT' INC2). cbn zeta in IH.
        destruct (forallb (okb e) (filter (fun c0 => lst <? s_seq c0) r)); destruct IH as (w & E1 & IH).
        -- destruct IH as (IH & IH'). exists w. split; [exact E1|]. split.
           ++ rewrite <- app_assoc in IH. exact IH.
           ++ rewrite IH', Su. cbn [map]. clear.
              destruct (map s_seq (filter (fun c0 => lst <? s_seq c0) r)) as [|x l]; [reflexivity|].
              cbn. revert x. induction l as [|y l IH]; intros x; [reflexivity|]. apply IH.
        -- exists w. auto.
    + apply Nat.ltb_ge in E.
      replace (s_seq c <=? lst) with true by (symmetry; apply Nat.leb_le; exact E).
      apply IH; auto.
Qed.

(** ** One request on the leader *)

Definition rel (F : nat -> bool) (o : option txn) (v : view W) : Prop :=
  1 <= v_last v /\
  (forall s, In s (v_run v) -> F (s_seq s) = true -> s_seq s = v_last v) /\
  match o with
  | None => v = empty_view
  | Some t => inv t (rev (v_run v)) /\ t_seq t = v_last v /\ t_req t = [v_last v]
  end.

(** What [serve] does after the repeated-request check and the partial rollback. *)
Definition body (e : env W) (q : request W) (lst : nat) (t0 : txn) : txn * list (entry W) :=
  let (t1, ok1) := if lst <? q_seq q - 1 then run_cached lst (q_bad q) e (q_cached q) t0
                   else (t0, true) in
  if ok1 then
    let (t2, ok2) := run_current e q t1 in
    if ok2 then
      match q_kind q with
      | KSelect => (t2, [])
      | _ => if e_raft e
             then let t3 := match q_kind q with KPrepare => apply_prepare e q t2 | _ => t2 end in
                  (clear_req t3, [ERun q])
             else (rollback_current_request t2, [])
      end
    else (rollback_current_request t2, [])
  else (rollback_current_request t1, []).

Lemma serve_some e q t :
  serve e q (Some t) =
  if (q_seq q <=? t_seq t) && negb (match q_kind q with KSelect | KForUpdate => true | _ => false end)
  then (Some t, [])
  else
    let p := partial_first q t in
    let r := body e q (t_seq t) (if p then clear_req (rollback_list (q_bad q) t) else t) in
    (Some (fst r), (if p then [EPartial (q_bad q)] else []) ++ snd r).
Proof.
  unfold serve, body. destruct (_ && _); [reflexivity|]. cbv zeta.
  destruct (if t_seq t <? q_seq q - 1 then _ else _) as (t1, ok1). destruct ok1.
  - destruct (run_current e q t1) as (t2, ok2). destruct ok2.
    + destruct (q_kind q), (e_raft e); cbn [fst snd]; rewrite ?app_nil_r; reflexivity.
    + cbn [fst snd]. rewrite app_nil_r. reflexivity.
  - cbn [fst snd]. rewrite app_nil_r. reflexivity.
Qed.

Lemma serve_none e q : 2 <= q_seq q ->
  serve e q None = (Some (fst (body e q 0 begin_txn)), snd (body e q 0 begin_txn)).
Proof.
  intros Q. unfold serve, body. cbv zeta.
  replace (0 <? q_seq q - 1) with true by (symmetry; apply Nat.ltb_lt; lia).
  destruct (run_cached 0 (q_bad q) e (q_cached q) begin_txn) as (t1, ok1). destruct ok1; [|reflexivity].
  destruct (run_current e q t1) as (t2, ok2). destruct ok2; [|reflexivity].
  destruct (q_kind q), (e_raft e); reflexivity.
Qed.

Definition own (q : request W) : list stmt :=
  match q_kind q with
  | KDml => [mkS (q_seq q) (q_w q) (q_rows q)]
  | KForUpdate => [mkS (q_seq q) [] 0]
  | _ => []
  end.
Definition ran (lst : nat) (q : request W) : list stmt :=
  if lst <? q_seq q - 1 then filter (fun c => lst <? s_seq c) (q_cached q) else [].

Lemma increasing_lt l : forall x y, increasing (x :: l) -> In y l -> x < y.
Proof.
  induction l as [|z r IH]; intros x y; [intros _ []|]. cbn [increasing]. intros (A & B) [->|Hy]; [exact A|].
  apply (IH x y); [|exact Hy]. destruct B as (B1 & B2). split; [|exact B2].
  destruct r; [exact Logic.I|lia].
Qed.

Lemma increasing_app_l a b : increasing (a ++ b) -> increasing a.
Proof.
  induction a as [|x r IH]; [intros _; exact Logic.I|]. cbn [app increasing]. intros (A & B).
  split; [|auto]. destruct r; [exact Logic.I|exact A].
Qed.

Lemma increasing_last a n y : increasing (a ++ [n]) -> In y a -> y < n.
Proof.
  induction a as [|x r IH]; intros A; [intros []|]. intros [->|Hy].
  - apply (increasing_lt (r ++ [n])); [exact A|]. apply in_or_app. right. cbn. auto.
  - apply IH; [|exact Hy]. cbn in A. apply A.
Qed.

Lemma wf_cached F (q : request W) : well_formed F q ->
  Forall (fun c => 1 < s_seq c < q_seq q /\ ~ In (s_seq c) (q_bad q)) (q_cached q) /\
  increasing (map s_seq (q_cached q)).
Proof.
  intros (A & B & C & D). split.
  - apply Forall_forall. intros c Hc. split.
    + split.
      * eapply increasing_lt; [exact C|]. apply in_or_app. left. apply in_map, Hc.
      * cbn in C. eapply (increasing_last (map s_seq (q_cached q))); [apply C|]. apply in_map, Hc.
    + rewrite B. intros (_ & E). rewrite (D c Hc) in E. discriminate.
  - cbn [increasing] in C. destruct C as (_ & C). eapply increasing_app_l; exact C.
Qed.

Lemma asked_eq F lst (q : request W) : well_formed F q -> asked lst q = ran lst q ++ own q.
Proof.
  intros Wf. unfold asked, ran, own. apply drop_id. apply Forall_app.
  destruct (wf_cached F q Wf) as (C & _). destruct Wf as (A & B & _). split.
  - destruct (lst <? q_seq q - 1); [|constructor].
    rewrite Forall_forall in *. intros c Hc. apply filter_In in Hc. apply C, Hc.
  - assert (N : ~ In (q_seq q) (q_bad q)) by (rewrite B; lia).
    destruct (q_kind q); repeat constructor; exact N.
Qed.

Lemma ran_01 F (q : request W) : well_formed F q -> ran 0 q = ran 1 q.
Proof.
  intros Wf. destruct (wf_cached F q Wf) as (C & _). destruct Wf as (A & B & _). unfold ran.
  replace (0 <? q_seq q - 1) with true by (symmetry; apply Nat.ltb_lt; lia).
  assert (E : filter (fun c => 0 <? s_seq c) (q_cached q) = filter (fun c => 1 <? s_seq c) (q_cached q)).
  { apply filter_ext_in. intros c Hc. rewrite Forall_forall in C. specialize (C c Hc).
    transitivity true; [|symmetry]; apply Nat.ltb_lt; lia. }
  rewrite E. destruct (1 <? q_seq q - 1) eqn:L; [reflexivity|]. apply Nat.ltb_ge in L.
  destruct (q_cached q) as [|c r]; [reflexivity|]. inversion C; subst. lia.
Qed.

Lemma succeeds_eq F e lst (q : request W) : well_formed F q ->
  succeeds e lst q = forallb (okb e) (ran lst q) && forallb (okb e) (own q) &&
    match q_kind q with KSelect => is_none (e_fail e (q_seq q)) | _ => e_raft e end.
Proof.
  intros Wf. unfold succeeds. rewrite (asked_eq F) by exact Wf.
  change (fun s : stmt => match e_fail e (s_seq s) with None => true | _ => false end) with (okb e).
  rewrite forallb_app. unfold is_none. reflexivity.
Qed.

Lemma clear_mid first base pushed t : mid first base pushed t ->
  inv (clear_req t) (rev pushed ++ base) /\ t_seq (clear_req t) = t_seq t /\ t_req (clear_req t) = [t_seq t].
Proof.
  intros M. split; [|auto]. eapply inv_ext; [exact (m_inv _ _ _ _ M)|reflexivity..|]. cbn. lia.
Qed.

Lemma prepare_spec e q first base pushed t :
  mid first base pushed t -> Forall (fun s => ~ In (s_seq s) (q_bad q)) (rev pushed ++ base) ->
  t_seq t < q_seq q -> ~ In (q_seq q) (q_bad q) ->
  let u := clear_req (apply_prepare e q t) in
  inv u (rev pushed ++ base) /\ t_seq u = q_seq q /\ t_req u = [q_seq q].
Proof.
  intros M G Lt Nb. cbn zeta.
  pose proof (rollback_list_none (q_bad q) t first base pushed M G) as M'.
  assert (E : t_seq (rollback_list (q_bad q) t) = t_seq t).
  { rewrite (m_seq _ _ _ _ M'), (m_seq _ _ _ _ M). reflexivity. }
  unfold apply_prepare, prepare_2pc. rewrite (proj2 (mem_false _ _) Nb). cbn zeta.
  set (r := rollback_list (q_bad q) t) in *. clearbody r.
  assert (Lt' : t_seq r < q_seq q) by lia.
  assert (E2 : set_seq_id (q_seq q) r =
     mkT (q_seq q) (t_batch r) (t_rsp r) (t_sseq r) (t_srows r) (t_req r) (t_plans r)
           (t_rows r) (t_dml r) (t_prepared r)).
  { unfold set_seq_id. replace (q_seq q <? t_seq r) with false by (symmetry; apply Nat.ltb_ge; lia). reflexivity. }
  rewrite E2. destruct (is_none _); cbn [fst].
  - rewrite set_seq_id_same by reflexivity. rewrite push_cmd_fresh.
    2:{ cbn. eapply mid_keys_lt; eassumption. }
    cbn. split; [|auto].
    destruct (m_inv _ _ _ _ M') as [S0 Ba0 R0 Pl0 K0 KS0 KO0 L0 O1 T2].
    split; cbn; auto.
    + eapply shape_ext; [exact S0|reflexivity..].
    + rewrite stm_app, Pl0. cbn. apply app_nil_r.
    + apply Forall_app. split; [exact K0|]. repeat constructor.
    + apply Forall_app. split; [|repeat constructor]. eapply Forall_impl; [|exact KS0]. cbn. lia.
    + rewrite map_app. apply sorted_snoc; [exact KO0|].
      rewrite Forall_map. eapply Forall_impl; [|exact KS0]. cbn. lia.
    + eapply Forall_impl; [|exact L0]. cbn. lia.
    + lia.
    + apply Forall_app. split; [exact T2|]. constructor; [|constructor]. right. cbn. lia.
  - split; [|auto]. eapply inv_ext; [exact (m_inv _ _ _ _ M')|reflexivity..|]. cbn. lia.
Qed.

Lemma ran_lt lst first F (q : request W) : well_formed F q -> first < q_seq q ->
  last (map s_seq (ran lst q)) first < q_seq q.
Proof.
  intros Wf L. destruct (wf_cached F q Wf) as (C & _).
  assert (A : Forall (fun n => n < q_seq q) (map s_seq (ran lst q))).
  { rewrite Forall_map. unfold ran. destruct (lst <? q_seq q - 1); [|constructor].
    rewrite Forall_forall in *. intros c Hc. apply filter_In in Hc. apply C, Hc. }
  revert A. generalize (map s_seq (ran lst q)). intros l. induction l as [|x r IH]; intros A; [exact L|].
  inversion A; subst. cbn. destruct r; [assumption|auto].
Qed.

Lemma mid_seq_last first base pushed t : mid first base pushed t -> t_seq t = last (map s_seq pushed) first.
Proof. intros M. apply (m_seq _ _ _ _ M). Qed.

(** The main step. *)
Lemma body_spec F e q lst base t0 first :
  well_formed F q -> first < q_seq q -> 1 <= first ->
  lst = first \/ (lst = 0 /\ first = 1) ->
  mid first base [] t0 -> Forall (fun s => ~ In (s_seq s) (q_bad q)) base ->
  let r := body e q lst t0 in
  let good := succeeds e lst q in
  let v' := if good then mkV (rev base ++ asked lst q) (q_seq q) else mkV (rev base) first in
  inv (fst r) (rev (v_run v')) /\ t_seq (fst r) = v_last v' /\ t_req (fst r) = [v_last v'] /\
  snd r = (if good then match q_kind q with KSelect => [] | _ => [ERun q] end else []).
Proof.
  intros Wf L1 L0 Lst M G. cbn zeta.
  rewrite (asked_eq F) by exact Wf. rewrite (succeeds_eq F) by exact Wf.
  destruct (wf_cached F q Wf) as (C & INC).
  assert (Nq : ~ In (q_seq q) (q_bad q)) by (destruct Wf as (_ & B & _); rewrite B; lia).
  assert (T0 : t_seq t0 = first) by exact (m_seq _ _ _ _ M).
  (* the cached statements *)
  set (R := ran lst q).
  assert (H1 : let r1 := if lst <? q_seq q - 1 then run_cached lst (q_bad q) e (q_cached q) t0 else (t0, true) in
     if forallb (okb e) R
     then exists u, r1 = (u, true) /\ mid first base R u
     else exists u, r1 = (u, false) /\ undoable first base u).
  { cbn zeta. unfold R, ran. destruct (lst <? q_seq q - 1) eqn:EL.
    - pose proof (run_cached_spec lst (q_bad q) e first base (q_cached q) [] t0 M G) as RC.
      assert (NB : Forall (fun s => ~ In (s_seq s) (q_bad q)) (q_cached q)).
      { eapply Forall_impl; [|exact C]. cbn. tauto. }
      assert (LT : Forall (fun s => lst < s_seq s -> t_seq t0 < s_seq s) (q_cached q)).
      { eapply Forall_impl; [|exact C]. cbn. intros c Hc. rewrite T0. lia. }
      specialize (RC NB LT INC). cbn zeta in RC. cbn [app] in RC.
      destruct (forallb _ _); destruct RC as (u & RC); exists u; tauto.
    - cbn. exists t0. split; [reflexivity|exact M]. }
  cbn zeta in H1. unfold body.
  assert (GR : Forall (fun s => ~ In (s_seq s) (q_bad q)) R).
  { unfold R, ran. destruct (lst <? q_seq q - 1); [|constructor].
    rewrite Forall_forall in *. intros c Hc. apply filter_In in Hc. apply C, Hc. }
  destruct (forallb (okb e) R).
  2:{ destruct H1 as (u & E1 & U). rewrite E1. cbn [andb v_run v_last fst snd].
      destruct U as (U1 & U2 & U3). rewrite rev_involutive. auto. }
  destruct H1 as (u & E1 & Mu). rewrite E1. cbn [andb].
  assert (Gu : Forall (fun s => ~ In (s_seq s) (q_bad q)) (rev R ++ base)).
  { apply Forall_app. split; [apply Forall_rev; exact GR|exact G]. }
  assert (Lu : t_seq u < q_seq q).
  { rewrite (m_seq _ _ _ _ Mu). eapply ran_lt; eassumption. }
  assert (REV : forall l, rev (rev base ++ R ++ l) = rev l ++ rev R ++ base).
  { intros l. rewrite !rev_app_distr, rev_involutive, <- app_assoc. reflexivity. }
  unfold run_current, own. destruct (q_kind q); cbn [forallb andb].
  - (* data statement *)
    pose proof (dml_spec (q_bad q) (e_fail e (q_seq q)) first base R u (q_stmt q) Mu Gu Lu Nq) as D.
    unfold okb. cbn [s_seq].
    destruct (e_fail e (q_seq q)) as [junk|]; destruct D as (w & D & Q); rewrite D; cbn [andb].
    + destruct Q as (Q1 & Q2 & Q3). cbn [v_run v_last fst snd]. rewrite rev_involutive. auto.
    + destruct (e_raft e).
      * destruct (clear_mid _ _ _ _ Q) as (C1 & C2 & C3). cbn [v_run v_last fst snd].
        rewrite REV. rewrite rev_app_distr in C1. cbn [rev app] in *.
        assert (Sw : t_seq w = q_seq q) by (rewrite (m_seq _ _ _ _ Q), map_app; apply last_snoc).
        rewrite Sw in *. split; [exact C1|auto].
      * cbn [v_run v_last fst snd]. rewrite rev_involutive.
        destruct (mid_undoable _ _ _ _ Q) as (U1 & U2 & U3). auto.
  - (* SELECT FOR UPDATE *)
    pose proof (for_update_spec (q_bad q) (is_none (e_fail e (q_seq q))) (q_seq q) first base R u Mu Gu Lu) as D.
    unfold okb. cbn [s_seq].
    destruct (e_fail e (q_seq q)) as [junk|]; cbn [is_none] in D |- *;
      destruct D as (w & D & Q); rewrite D; cbn [andb].
    + destruct Q as (Q1 & Q2 & Q3). cbn [v_run v_last fst snd]. rewrite rev_involutive. auto.
    + destruct (e_raft e).
      * destruct (clear_mid _ _ _ _ Q) as (C1 & C2 & C3). cbn [v_run v_last fst snd].
        rewrite REV. rewrite rev_app_distr in C1. cbn [rev app] in *.
        assert (Sw : t_seq w = q_seq q) by (rewrite (m_seq _ _ _ _ Q), map_app; apply last_snoc).
        rewrite Sw in *. split; [exact C1|auto].
      * cbn [v_run v_last fst snd]. rewrite rev_involutive.
        destruct (mid_undoable _ _ _ _ Q) as (U1 & U2 & U3). auto.
  - (* SELECT *)
    pose proof (rollback_list_none (q_bad q) u first base R Mu Gu) as Mr.
    destruct (is_none (e_fail e (q_seq q))).
    + cbn [v_run v_last fst snd]. rewrite REV. cbn [rev app]. split; [|auto].
      eapply inv_ext; [exact (m_inv _ _ _ _ Mr)|reflexivity..|].
      cbn. rewrite (m_seq _ _ _ _ Mr), <- (m_seq _ _ _ _ Mu). lia.
    + cbn [v_run v_last fst snd]. rewrite rev_involutive.
      destruct (mid_undoable _ _ _ _ Mr) as (U1 & U2 & U3). auto.
  - (* PREPARE *)
    destruct (e_raft e).
    + pose proof (prepare_spec e q first base R u Mu Gu Lu Nq) as P. cbn zeta in P.
      cbn [v_run v_last fst snd]. rewrite REV. cbn [rev app]. tauto.
    + cbn [v_run v_last fst snd]. rewrite rev_involutive.
      destruct (mid_undoable _ _ _ _ Mu) as (U1 & U2 & U3). auto.
Qed.

(** [rel] gives the state at the start of the body. *)
Lemma rel_start F (q : request W) t v :
  well_formed F q -> rel F (Some t) v -> v_last v < q_seq q ->
  mid (v_last v) (rev (drop (q_bad q) (v_run v))) []
      (if partial_first q t then clear_req (rollback_list (q_bad q) t) else t).
Proof.
  intros Wf (L & C & I & Sq & Rq) Lt. destruct Wf as (A & B & _).
  assert (KEYS : forall u : txn, t_seq u = v_last v -> Forall (fun e => fst e <= t_seq u) (t_plans u) ->
     Forall (fun e => fst e <= v_last v \/ In (fst e) (map (@s_seq W) [])) (t_plans u)).
  { intros u E K. eapply Forall_impl; [|exact K]. cbn. intros. left. lia. }
  assert (LE : Forall (fun s => s_seq s <= v_last v) (rev (drop (q_bad q) (v_run v)))).
  { apply Forall_rev, drop_incl. rewrite <- (rev_involutive (v_run v)). apply Forall_rev.
    rewrite <- Sq. exact (i_le _ _ I). }
  unfold partial_first. destruct (mem (t_seq t) (q_bad q)) eqn:E.
  - destruct (rollback_list_inv (q_bad q) t _ I) as (I' & E1 & E2).
    { destruct (rev (v_run v)) as [|s r] eqn:Er; [exact Logic.I|].
      pose proof (sh_desc _ _ (i_shape _ _ I)) as Ds. cbn in Ds. inversion Ds as [|? ? D1 D2]; subst.
      rewrite Forall_map in D2. pose proof (i_le _ _ I) as Le. inversion Le as [|? ? Le1 Le2]; subst.
      rewrite Forall_forall in *. intros x Hx Hb. specialize (D2 x Hx). rewrite B in Hb.
      assert (Hin : In x (v_run v)). { apply in_rev. rewrite Er. cbn. auto. }
      specialize (C x Hin (proj2 Hb)). lia. }
    rewrite drop_rev in I'.
    split; auto.
    + eapply inv_ext; [exact I'|reflexivity..|]. cbn. lia.
    + cbn. rewrite E1, Sq. reflexivity.
    + apply KEYS; [cbn; lia|]. exact (i_keys _ _ I').
    + cbn. lia.
  - apply mem_false in E.
    assert (D : drop (q_bad q) (v_run v) = v_run v).
    { apply drop_id, Forall_forall. intros s Hs Hb. pose proof Hb as Hb'. rewrite B in Hb'.
      specialize (C s Hs (proj2 Hb')). apply E. rewrite Sq, <- C. exact Hb. }
    rewrite D in *. split; auto. apply KEYS; auto. exact (i_keys _ _ I).
Qed.

Lemma begin_mid : mid 1 [] [] (@begin_txn W).
Proof.
  split; cbn; repeat constructor.
Qed.

Lemma good_base F (q : request W) (v : view W) : well_formed F q ->
  Forall (fun s => ~ In (s_seq s) (q_bad q)) (rev (drop (q_bad q) (v_run v))).
Proof. intros _. apply Forall_rev, drop_forall. Qed.

(** New standing statements are not given up, except the request's own. *)
Lemma serve_view_clean F (e : env W) q v :
  well_formed F q -> 1 <= v_last v ->
  Forall (fun s => s_seq s <= v_last v) (v_run v) ->
  (forall s, In s (v_run v) -> F (s_seq s) = true -> s_seq s = v_last v) ->
  let v' := serve_view e q v in
  1 <= v_last v' /\
  (forall s, In s (v_run v') -> F (s_seq s) = true -> s_seq s = v_last v').
Proof.
  intros Wf L LE C. cbn zeta. unfold serve_view.
  destruct (q_seq q <=? v_last v) eqn:E; [auto|]. apply Nat.leb_gt in E.
  assert (D : forall s, In s (drop (q_bad q) (v_run v)) -> F (s_seq s) = true -> False).
  { intros s Hs Hf. pose proof (drop_forall (q_bad q) (v_run v)) as DF. rewrite Forall_forall in DF.
    apply (DF s Hs). destruct Wf as (_ & B & _). apply B. split; [|exact Hf].
    apply filter_In in Hs. rewrite Forall_forall in LE. specialize (LE s (proj1 Hs)). lia. }
  destruct (succeeds e (v_last v) q); cbn [v_run v_last].
  - rewrite (asked_eq F) by exact Wf. split; [lia|]. intros s Hs Hf. apply in_app_or in Hs.
    destruct Hs as [Hs|Hs]; [destruct (D s Hs Hf)|]. apply in_app_or in Hs. destruct Hs as [Hs|Hs].
    + destruct Wf as (_ & _ & _ & N). unfold ran in Hs. destruct (_ <? _) in Hs; [|destruct Hs].
      apply filter_In in Hs. rewrite (N s (proj1 Hs)) in Hf. discriminate.
    + unfold own in Hs. destruct (q_kind q); cbn in Hs; try tauto; destruct Hs as [<-|[]]; reflexivity.
  - split; [exact L|]. intros s Hs Hf. destruct (D s Hs Hf).
Qed.

Lemma rel_le F o v : rel F o v -> Forall (fun s => s_seq s <= v_last v) (v_run v).
Proof.
  intros (L & C & R). destruct o as [t|].
  - destruct R as (I & Sq & _). rewrite <- (rev_involutive (v_run v)). apply Forall_rev.
    rewrite <- Sq. exact (i_le _ _ I).
  - subst v. constructor.
Qed.

Lemma asked_01 F (q : request W) : well_formed F q -> asked 0 q = asked 1 q.
Proof. intros Wf. rewrite !(asked_eq F) by exact Wf. rewrite (ran_01 F) by exact Wf. reflexivity. Qed.

Lemma succeeds_01 F e (q : request W) : well_formed F q -> succeeds e 0 q = succeeds e 1 q.
Proof. intros Wf. unfold succeeds. rewrite (asked_01 F) by exact Wf. reflexivity. Qed.

Lemma serve_rel F e q o v :
  well_formed F q -> reads_in_order (v_last v) q -> rel F o v ->
  rel F (fst (serve e q o)) (serve_view e q v).
Proof.
  intros Wf RO Re. pose proof (rel_le F o v Re) as LE.
  pose proof (serve_view_clean F e q v Wf (proj1 Re) LE (proj1 (proj2 Re))) as (L' & C').
  split; [exact L'|]. split; [exact C'|]. clear L' C'.
  destruct o as [t|].
  - rewrite serve_some. destruct Re as (L & C & I & Sq & Rq). rewrite Sq.
    destruct (q_seq q <=? v_last v) eqn:E.
    + assert (K : negb (match q_kind q with KSelect | KForUpdate => true | _ => false end) = true).
      { apply Nat.leb_le in E. unfold reads_in_order in RO. destruct (q_kind q); try reflexivity; lia. }
      rewrite K. cbn [andb fst]. unfold serve_view. rewrite E. auto.
    + cbn [andb]. cbv zeta. cbn [fst]. apply Nat.leb_gt in E.
      pose proof (body_spec F e q (v_last v) (rev (drop (q_bad q) (v_run v)))
        (if partial_first q t then clear_req (rollback_list (q_bad q) t) else t) (v_last v)
        Wf E L (or_introl eq_refl)
        (rel_start F q t v Wf (conj L (conj C (conj I (conj Sq Rq)))) E)
        (good_base F q v Wf)) as B. cbn zeta in B. rewrite rev_involutive in B.
      unfold serve_view. replace (q_seq q <=? v_last v) with false by (symmetry; apply Nat.leb_gt; exact E).
      destruct B as (B1 & B2 & B3 & _). auto.
  - destruct Re as (L & C & ->). rewrite serve_none by exact (proj1 Wf). cbn [fst].
    assert (E : 1 < q_seq q) by (destruct Wf; lia).
    pose proof (body_spec F e q 0 [] begin_txn 1 Wf E (le_n 1) (or_intror (conj eq_refl eq_refl))
       begin_mid (Forall_nil _)) as B. cbn zeta in B.
    rewrite (asked_01 F), (succeeds_01 F) in B by exact Wf.
    unfold serve_view, empty_view. cbn [v_last v_run].
    replace (q_seq q <=? 1) with false by (symmetry; apply Nat.leb_gt; exact E).
    destruct B as (B1 & B2 & B3 & _). auto.
Qed.

Lemma rel_empty F : rel F None empty_view.
Proof. split; [cbn; lia|]. split; [intros s []|reflexivity]. Qed.

Lemma serve_all_rel F : forall rs o v,
  rel F o v -> history F rs v -> rel F (fst (serve_all rs o)) (serve_views rs v).
Proof.
  induction rs as [|(e, q) rs IH]; intros o v R H0; [exact R|].
  cbn [history] in H0. destruct H0 as (Wf & RO & H0).
  cbn [serve_all]. destruct (serve e q o) as (o1, l1) eqn:E1.
  destruct (serve_all rs o1) as (o2, l2) eqn:E2. cbn [fst].
  unfold serve_views. cbn [fold_left fst snd].
  specialize (IH o1 (serve_view e q v)). rewrite E2 in IH. apply IH; [|exact H0].
  pose proof (serve_rel F e q o v Wf RO R) as Q. rewrite E1 in Q. exact Q.
Qed.

(** ** Followers *)

Lemma drop_not_last F (q : request W) (v : view W) :
  well_formed F q -> (forall s, In s (v_run v) -> F (s_seq s) = true -> s_seq s = v_last v) ->
  mem (v_last v) (q_bad q) = false -> drop (q_bad q) (v_run v) = v_run v.
Proof.
  intros (A & B & _) C E. apply mem_false in E.
  apply drop_id, Forall_forall. intros s Hs Hb. pose proof Hb as Hb'. rewrite B in Hb'.
  specialize (C s Hs (proj2 Hb')). apply E. rewrite <- C. exact Hb.
Qed.

(** What the leader's group logs for a request. *)
Lemma serve_log F e q o v :
  well_formed F q -> reads_in_order (v_last v) q -> rel F o v ->
  snd (serve e q o) =
  if q_seq q <=? v_last v then []
  else (match o with Some _ => if mem (v_last v) (q_bad q) then [EPartial (q_bad q)] else [] | None => [] end)
       ++ (if succeeds e (v_last v) q then match q_kind q with KSelect => [] | _ => [ERun q] end else []).
Proof.
  intros Wf RO Re. destruct o as [t|].
  - rewrite serve_some. destruct Re as (L & C & I & Sq & Rq). rewrite Sq.
    destruct (q_seq q <=? v_last v) eqn:E.
    + assert (K : negb (match q_kind q with KSelect | KForUpdate => true | _ => false end) = true).
      { apply Nat.leb_le in E. unfold reads_in_order in RO. destruct (q_kind q); try reflexivity; lia. }
      rewrite K. reflexivity.
    + cbn [andb]. cbv zeta. cbn [snd]. apply Nat.leb_gt in E.
      pose proof (body_spec F e q (v_last v) (rev (drop (q_bad q) (v_run v)))
        (if partial_first q t then clear_req (rollback_list (q_bad q) t) else t) (v_last v)
        Wf E L (or_introl eq_refl)
        (rel_start F q t v Wf (conj L (conj C (conj I (conj Sq Rq)))) E)
        (good_base F q v Wf)) as B. cbn zeta in B.
      destruct B as (_ & _ & _ & B). rewrite B. unfold partial_first. rewrite Sq. reflexivity.
  - destruct Re as (L & C & ->). rewrite serve_none by exact (proj1 Wf). cbn [snd].
    assert (E : 1 < q_seq q) by (destruct Wf; lia).
    pose proof (body_spec F e q 0 [] begin_txn 1 Wf E (le_n 1) (or_intror (conj eq_refl eq_refl))
       begin_mid (Forall_nil _)) as B. cbn zeta in B.
    rewrite (asked_01 F), (succeeds_01 F) in B by exact Wf.
    unfold empty_view. cbn [v_last v_run].
    replace (q_seq q <=? 1) with false by (symmetry; apply Nat.leb_gt; exact E).
    destruct B as (_ & _ & _ & B). exact B.
Qed.

(** [strict] says that no SELECT has moved the leader's number ahead. *)
Definition relf (strict : Prop) (o : option txn) (v : view W) : Prop :=
  match o with
  | None => v_run v = [] /\ (strict -> v_last v = 1)
  | Some t => inv t (rev (v_run v)) /\ 1 <= t_seq t <= v_last v /\ t_req t = [t_seq t] /\
              (strict -> t_seq t = v_last v)
  end.

Lemma follow_partial F strict (q : request W) o v :
  well_formed F q ->
  Forall (fun s => s_seq s <= v_last v) (v_run v) ->
  (forall s, In s (v_run v) -> F (s_seq s) = true -> s_seq s = v_last v) ->
  relf strict o v ->
  relf strict (apply_stmt (EPartial (q_bad q)) o) (mkV (drop (q_bad q) (v_run v)) (v_last v)).
Proof.
  intros Wf LE C R. destruct o as [t|]; cbn [apply_stmt relf v_run v_last] in *.
  - destruct R as (I & L & Rq & St). destruct Wf as (A & B & _).
    destruct (rollback_list_inv (q_bad q) t _ I) as (I' & E1 & E2).
    { destruct (rev (v_run v)) as [|s r] eqn:Er; [exact Logic.I|].
      pose proof (sh_desc _ _ (i_shape _ _ I)) as Ds. cbn in Ds. inversion Ds as [|? ? D1 D2]; subst.
      rewrite Forall_map in D2. rewrite Forall_forall in *. intros x Hx Hb. specialize (D2 x Hx). rewrite B in Hb.
      assert (Hin : In x (v_run v)). { apply in_rev. rewrite Er. cbn. auto. }
      assert (His : In s (v_run v)). { apply in_rev. rewrite Er. cbn. auto. }
      specialize (C x Hin (proj2 Hb)). specialize (LE s His). lia. }
    rewrite drop_rev in I'.
    split; [|cbn; rewrite E1; auto].
    eapply inv_ext; [exact I'|reflexivity..|]. cbn. lia.
  - destruct R as (E & St). rewrite E. auto.
Qed.

Lemma forallb_calm (l : list stmt) : forallb (okb calm) l = true.
Proof. induction l; auto. Qed.

Lemma follow_run F (strict : Prop) (q : request W) o v :
  well_formed F q -> v_last v < q_seq q -> q_kind q <> KSelect ->
  strict \/ q_cached q = [] ->
  Forall (fun s => ~ In (s_seq s) (q_bad q)) (v_run v) ->
  relf strict o v ->
  relf strict (apply_stmt (ERun q) o) (mkV (v_run v ++ asked (v_last v) q) (q_seq q)).
Proof.
  intros Wf Lt Kn Md G R.
  set (lst := match o with None => 0 | Some t => t_seq t end).
  set (first := match o with None => 1 | Some t => t_seq t end).
  set (t0 := match o with None => begin_txn | Some t => t end).
  assert (M : mid first (rev (v_run v)) [] t0).
  { destruct o as [t|]; cbn [relf] in R; subst first t0.
    - destruct R as (I & L & Rq & St). split; auto.
      + exact (i_le _ _ I).
      + eapply Forall_impl; [|exact (i_keys _ _ I)]. cbn. auto.
      + exact (i_one _ _ I).
    - destruct R as (E & _). rewrite E. exact begin_mid. }
  assert (LL : first < q_seq q /\ lst < q_seq q).
  { destruct o as [t|]; subst first lst; cbn in R; [|destruct Wf; lia]. destruct R as (_ & L & _). lia. }
  assert (ER : ran lst q = ran (v_last v) q).
  { destruct Md as [St|Nc].
    - destruct o as [t|]; subst lst; cbn in R.
      + destruct R as (_ & _ & _ & R). rewrite (R St). reflexivity.
      + destruct R as (_ & R). rewrite (R St). apply (ran_01 F), Wf.
    - unfold ran. rewrite Nc. cbn [filter]. destruct (lst <? q_seq q - 1), (v_last v <? q_seq q - 1); reflexivity. }
  rewrite (asked_eq F) by exact Wf. rewrite <- ER.
  destruct (wf_cached F q Wf) as (C & INC).
  assert (Nq : ~ In (q_seq q) (q_bad q)) by (destruct Wf as (_ & B & _); rewrite B; lia).
  assert (T0 : t_seq t0 = first) by exact (m_seq _ _ _ _ M).
  assert (Gb : Forall (fun s => ~ In (s_seq s) (q_bad q)) (rev (v_run v))) by (apply Forall_rev; exact G).
  assert (H1 : exists u, (if lst <? q_seq q - 1 then fst (run_cached lst (q_bad q) calm (q_cached q) t0) else t0) = u
     /\ mid first (rev (v_run v)) (ran lst q) u).
  { unfold ran. destruct (lst <? q_seq q - 1) eqn:EL.
    - pose proof (run_cached_spec lst (q_bad q) calm first (rev (v_run v)) (q_cached q) [] t0 M Gb) as RC.
      assert (NB : Forall (fun s => ~ In (s_seq s) (q_bad q)) (q_cached q)).
      { eapply Forall_impl; [|exact C]. cbn. tauto. }
      assert (LT : Forall (fun s => lst < s_seq s -> t_seq t0 < s_seq s) (q_cached q)).
      { eapply Forall_impl; [|exact C]. cbn. intros c Hc Hl. rewrite T0. destruct o; subst lst first; cbn in *; lia. }
      specialize (RC NB LT INC). cbn zeta in RC. cbn [app] in RC. rewrite forallb_calm in RC.
      destruct RC as (u & RC & Mu & _). exists u. rewrite RC. auto.
    - exists t0. split; [reflexivity|exact M]. }
  destruct H1 as (u & Eu & Mu).
  assert (GR : Forall (fun s => ~ In (s_seq s) (q_bad q)) (ran lst q)).
  { unfold ran. destruct (lst <? q_seq q - 1); [|constructor].
    rewrite Forall_forall in *. intros c Hc. apply filter_In in Hc. apply C, Hc. }
  assert (Gu : Forall (fun s => ~ In (s_seq s) (q_bad q)) (rev (ran lst q) ++ rev (v_run v))).
  { apply Forall_app. split; [apply Forall_rev; exact GR|exact Gb]. }
  assert (Lu : t_seq u < q_seq q).
  { rewrite (m_seq _ _ _ _ Mu). eapply ran_lt; [exact Wf|tauto]. }
  assert (E : apply_stmt (ERun q) o = Some (clear_req (match q_kind q with
                            | KPrepare => apply_prepare calm q u
                            | _ => fst (run_current calm q u)
                            end))).
  { unfold apply_stmt. change (match o with None => 0 | Some t => t_seq t end) with lst.
    change (match o with None => begin_txn | Some t => t end) with t0. cbv zeta.
    replace (lst <? q_seq q) with true by (symmetry; apply Nat.ltb_lt; tauto).
    rewrite Eu. destruct o; reflexivity. }
  rewrite E. cbn [relf v_run v_last].
  assert (REV : forall l, rev (v_run v ++ ran lst q ++ l) = rev l ++ rev (ran lst q) ++ rev (v_run v)).
  { intros l. rewrite !rev_app_distr, <- app_assoc. reflexivity. }
  assert (FIN : forall w, mid first (rev (v_run v)) (ran lst q ++ own q) w -> t_seq w = q_seq q ->
     inv (clear_req w) (rev (v_run v ++ ran lst q ++ own q)) /\ 1 <= t_seq (clear_req w) <= q_seq q /\
     t_req (clear_req w) = [t_seq (clear_req w)] /\ (strict -> t_seq (clear_req w) = q_seq q)).
  { intros w Mw Sw. destruct (clear_mid _ _ _ _ Mw) as (C1 & C2 & C3). rewrite REV.
    rewrite rev_app_distr, <- app_assoc in C1. split; [exact C1|]. cbn. rewrite Sw. split; [lia|auto]. }
  unfold run_current. unfold own in *. destruct (q_kind q).
  - pose proof (dml_spec (q_bad q) None first (rev (v_run v)) (ran lst q) u (q_stmt q) Mu Gu Lu Nq) as D.
    cbn beta iota in D. destruct D as (w & D & Q). cbn [calm e_fail]. rewrite D. cbn [fst].
    apply FIN; [exact Q|]. rewrite (m_seq _ _ _ _ Q), map_app. apply last_snoc.
  - pose proof (for_update_spec (q_bad q) true (q_seq q) first (rev (v_run v)) (ran lst q) u Mu Gu Lu) as D.
    cbn beta iota in D. destruct D as (w & D & Q). cbn [calm e_fail is_none]. rewrite D. cbn [fst].
    apply FIN; [exact Q|]. rewrite (m_seq _ _ _ _ Q), map_app. apply last_snoc.
  - congruence.
  - pose proof (prepare_spec calm q first (rev (v_run v)) (ran lst q) u Mu Gu Lu Nq) as P. cbn zeta in P.
    destruct P as (P1 & P2 & P3). rewrite REV. cbn [rev app]. rewrite P2, P3.
    split; [exact P1|]. split; [lia|auto].
Qed.

Lemma apply_stmts_app (a b : list (entry W)) o : apply_stmts (a ++ b) o = apply_stmts b (apply_stmts a o).
Proof. unfold apply_stmts. apply fold_left_app. Qed.

(** Which requests keep a follower in step: either plain SELECTs never occur, or
    no statement travels as a cached one. *)
Lemma follow_step F (strict : Prop) e q o f v :
  well_formed F q -> reads_in_order (v_last v) q ->
  (strict /\ q_kind q <> KSelect) \/ (~ strict /\ q_cached q = []) ->
  rel F o v -> relf strict f v ->
  relf strict (apply_stmts (snd (serve e q o)) f) (serve_view e q v).
Proof.
  intros Wf RO Md Re Rf. rewrite (serve_log F e q o v Wf RO Re).
  pose proof (rel_le F o v Re) as LE.
  unfold serve_view. destruct (q_seq q <=? v_last v) eqn:E; [exact Rf|]. apply Nat.leb_gt in E.
  rewrite apply_stmts_app.
  assert (R1 : relf strict (apply_stmts (match o with Some _ => if mem (v_last v) (q_bad q) then [EPartial (q_bad q)] else [] | None => [] end) f)
     (mkV (drop (q_bad q) (v_run v)) (v_last v))).
  { destruct o as [t|].
    - destruct (mem (v_last v) (q_bad q)) eqn:Em.
      + apply (follow_partial F); auto. exact (proj1 (proj2 Re)).
      + rewrite (drop_not_last F q v Wf (proj1 (proj2 Re)) Em). destruct v; exact Rf.
    - destruct Re as (_ & _ & ->). exact Rf. }
  set (f1 := apply_stmts _ f) in *. clearbody f1.
  destruct (succeeds e (v_last v) q); [|exact R1].
  destruct (q_kind q) eqn:EK.
  1,2,4: apply (follow_run F strict q f1 (mkV (drop (q_bad q) (v_run v)) (v_last v)) Wf E);
     [congruence|tauto|apply drop_forall|exact R1].
  destruct Md as [Md|(Ns & Nc)]; [destruct Md; congruence|].
  assert (EA : asked (v_last v) q = []).
  { rewrite (asked_eq F) by exact Wf. unfold ran, own. rewrite Nc, EK. cbn [filter]. destruct (v_last v <? q_seq q - 1); reflexivity. }
  cbn [apply_stmts fold_left]. rewrite EA, app_nil_r.
  destruct f1 as [t|]; cbn [relf v_run v_last] in *.
  - destruct R1 as (A & B & C & D). split; [exact A|]. split; [lia|]. split; [exact C|]. tauto.
  - split; tauto.
Qed.

Lemma follow_all F (strict : Prop) : forall rs o f v,
  Forall (fun r : env W * request W => (strict /\ q_kind (snd r) <> KSelect) \/ (~ strict /\ q_cached (snd r) = [])) rs ->
  rel F o v -> relf strict f v -> history F rs v ->
  relf strict (apply_stmts (snd (serve_all rs o)) f) (serve_views rs v).
Proof.
  induction rs as [|(e, q) rs IH]; intros o f v Md R Rf H0; [exact Rf|].
  cbn [history] in H0. destruct H0 as (Wf & RO & H0). inversion Md as [|? ? M1 M2]; subst. cbn [snd] in M1.
  pose proof (serve_rel F e q o v Wf RO R) as Q1.
  pose proof (follow_step F strict e q o f v Wf RO M1 R Rf) as Q2.
  cbn [serve_all]. destruct (serve e q o) as (o1, l1).
  destruct (serve_all rs o1) as (o2, l2) eqn:E2. cbn [fst snd] in *.
  rewrite apply_stmts_app. specialize (IH o1 (apply_stmts l1 f) (serve_view e q v) M2 Q1 Q2 H0).
  rewrite E2 in IH. exact IH.
Qed.

(** ** Rebuilding from the cached plans *)


Lemma replay_step bad n v o rl :
  match o with
  | None => rl = []
  | Some t => inv t rl /\ t_req t = [t_seq t] /\ t_seq t < n
  end ->
  2 <= n -> ~ In n bad -> Forall (fun s : stmt => ~ In (s_seq s) bad) rl ->
  v <> PBegin -> (match v with PStmt s => s_seq s = n | _ => True end) ->
  exists u,
    match v with
    | PBegin => o
    | PPrepare => apply_stmt (ERun (mkQ KPrepare n bad [] [] 0)) o
    | PStmt s => apply_stmt (ERun (mkQ KDml n bad [] (s_w s) (s_rows s))) o
    end = Some u /\
    inv u (match v with PStmt s => s :: rl | _ => rl end) /\ t_req u = [t_seq u] /\ t_seq u = n.
Proof.
  intros R N2 Nb G NB K.
  set (first := match o with None => 1 | Some t => t_seq t end).
  set (t0 := match o with None => begin_txn | Some t => t end).
  assert (M : mid first rl [] t0 /\ first < n).
  { destruct o as [t|]; subst first t0.
    - destruct R as (I & Rq & Lt). split; [|exact Lt]. split; auto.
      + exact (i_le _ _ I).
      + eapply Forall_impl; [|exact (i_keys _ _ I)]. cbn. auto.
      + exact (i_one _ _ I).
    - subst rl. split; [exact begin_mid|lia]. }
  destruct M as (M & Lt).
  assert (T0 : t_seq t0 < n) by (rewrite (m_seq _ _ _ _ M); exact Lt).
  assert (E : forall q, q_cached q = [] -> q_seq q = n -> q_bad q = bad ->
     apply_stmt (ERun q) o = Some (clear_req (match q_kind q with
                            | KPrepare => apply_prepare calm q t0
                            | _ => fst (run_current calm q t0)
                            end))).
  { intros q C Q B. unfold apply_stmt. rewrite C, Q. cbn [run_cached fst].
    set (l := match o with None => 0 | Some t => t_seq t end).
    assert (Ll : l < n) by (subst l first; destruct o; lia).
    replace (l <? n) with true by (symmetry; apply Nat.ltb_lt; exact Ll).
    replace (if l <? n - 1 then match o with Some t => t | None => begin_txn end
             else match o with Some t => t | None => begin_txn end) with t0 by (destruct (_ <? _); reflexivity).
    destruct o; reflexivity. }
  destruct v as [| |s]; [congruence| |].
  - rewrite E by reflexivity. cbn [q_kind]. eexists. split; [reflexivity|].
    pose proof (prepare_spec calm (mkQ KPrepare n bad [] [] 0) first rl [] t0 M G T0 Nb) as P. cbn zeta in P.
    destruct P as (P1 & P2 & P3). rewrite P2, P3. auto.
  - rewrite E by reflexivity. cbn [q_kind run_current q_bad q_seq calm e_fail]. eexists. split; [reflexivity|].
    unfold q_stmt. cbn [q_seq q_w q_rows].
    replace (mkS n (s_w s) (s_rows s)) with s by (destruct s; cbn in *; subst; reflexivity).
    subst n.
    pose proof (dml_spec bad None first rl [] t0 s M G T0 Nb) as D. cbn beta iota in D.
    destruct D as (w & D & Q). rewrite D. cbn [fst app] in *.
    destruct (clear_mid _ _ _ _ Q) as (C1 & C2 & C3). rewrite C2, C3.
    split; [exact C1|]. split; [reflexivity|]. rewrite (m_seq _ _ _ _ Q). reflexivity.
Qed.

Lemma replay_fold bad : forall (p : list (nat * plan W)) o rl,
  match o with
  | None => rl = []
  | Some t => inv t rl /\ t_req t = [t_seq t] /\ Forall (fun e => snd e = PBegin \/ t_seq t < fst e) p
  end ->
  StronglySorted lt (map fst p) -> keyed p -> two p ->
  Forall (fun e => match snd e with PBegin => True | _ => ~ In (fst e) bad end) p ->
  Forall (fun s : stmt => ~ In (s_seq s) bad) rl ->
  let o' := fold_left (fun o e =>
    match snd e with
    | PBegin => o
    | PPrepare => apply_stmt (ERun (mkQ KPrepare (fst e) bad [] [] 0)) o
    | PStmt s => apply_stmt (ERun (mkQ KDml (fst e) bad [] (s_w s) (s_rows s))) o
    end) p o in
  match o' with
  | None => rev (stm p) ++ rl = []
  | Some t => inv t (rev (stm p) ++ rl)
  end.
Proof.
  induction p as [|(n, v) p IH]; intros o rl R So K T B G; cbn zeta.
  - cbn. destruct o; tauto.
  - cbn [map fst snd] in *. inversion So as [|? ? So1 So2]; subst.
    inversion K as [|? ? K1 K2]; subst. inversion T as [|? ? T1 T2]; subst.
    inversion B as [|? ? B1 B2]; subst. cbn [fst snd] in *. cbn [fold_left fst snd].
    destruct v as [| |s] eqn:Ev.
    + apply IH; auto. destruct o as [t|]; [|exact R].
      destruct R as (R1 & R2 & R3). inversion R3; subst. auto.
    + destruct (replay_step bad n PPrepare o rl) as (u & E & I & Rq & Sq).
      { destruct o as [t|]; [|exact R]. destruct R as (R1 & R2 & R3). inversion R3 as [|? ? R4 R5]; subst.
        cbn in R4. destruct R4; [discriminate|auto]. }
      { destruct T1; [discriminate|assumption]. }
      { exact B1. } { exact G. } { discriminate. } { exact Logic.I. }
      cbn beta iota in E, I. rewrite E. apply (IH (Some u) rl); auto.
      split; [exact I|]. split; [exact Rq|]. rewrite Sq. rewrite Forall_map in So2.
      eapply Forall_impl; [|exact So2]. cbn. auto.
    + destruct (replay_step bad n (PStmt s) o rl) as (u & E & I & Rq & Sq).
      { destruct o as [t|]; [|exact R]. destruct R as (R1 & R2 & R3). inversion R3 as [|? ? R4 R5]; subst.
        cbn in R4. destruct R4; [discriminate|auto]. }
      { destruct T1; [discriminate|assumption]. }
      { exact B1. } { exact G. } { discriminate. } { auto. }
      cbn beta iota in E, I. rewrite E.
      change (stm ((n, PStmt s) :: p)) with (s :: stm p). cbn [rev]. rewrite <- app_assoc. cbn [app].
      apply (IH (Some u) (s :: rl)); auto.
      * split; [exact I|]. split; [exact Rq|]. rewrite Sq. rewrite Forall_map in So2.
        eapply Forall_impl; [|exact So2]. cbn. auto.
      * constructor; [|exact G]. rewrite <- K1. exact B1.
Qed.

Lemma replay_inv bad t (rl : list stmt) :
  inv t rl ->
  (forall n v, In (n, v) (t_plans t) -> v <> PBegin -> ~ In n bad) ->
  match replay bad (t_plans t) with
  | None => rl = []
  | Some u => inv u rl
  end.
Proof.
  intros I N. unfold replay.
  pose proof (replay_fold bad (t_plans t) None [] eq_refl (i_sorted _ _ I) (i_keyed _ _ I) (i_two _ _ I)) as Q.
  cbn zeta in Q. rewrite (i_stm _ _ I), rev_involutive, app_nil_r in Q. apply Q; [|constructor].
  apply Forall_forall. intros (n, v) Hin. cbn. destruct v; [exact Logic.I| |]; eapply N; eauto; discriminate.
Qed.

End Proofs.

(** ** The statements of [PropertiesSave] *)
Section Statements.
Context {W : Type}.
Notation stmt := (stmt W).

Lemma uncommitted_rel F o (v : view W) : rel F o v -> uncommitted o = (writes (v_run v), rows (v_run v)).
Proof.
  intros (_ & _ & R). destruct o as [t|].
  - destruct R as (I & _). cbn. rewrite (i_batch _ _ I), (i_rows _ _ I), rev_involutive. reflexivity.
  - subst v. reflexivity.
Qed.

Lemma uncommitted_relf st o (v : view W) : relf st o v -> uncommitted o = (writes (v_run v), rows (v_run v)).
Proof.
  destruct o as [t|]; cbn [relf].
  - intros (I & _). cbn. rewrite (i_batch _ _ I), (i_rows _ _ I), rev_involutive. reflexivity.
  - intros (-> & _). reflexivity.
Qed.

Lemma refines F (rs : list (env W * request W)) :
  history F rs empty_view ->
  uncommitted (fst (serve_all rs None)) =
  (writes (v_run (serve_views rs empty_view)), rows (v_run (serve_views rs empty_view))).
Proof.
  intros H0. eapply uncommitted_rel. apply (serve_all_rel F); [apply rel_empty|exact H0].
Qed.

Lemma kept_app F (a b : list stmt) : kept F (a ++ b) = kept F a ++ kept F b.
Proof. apply filter_app. Qed.

Lemma kept_drop F (q : request W) (l : list stmt) : well_formed F q -> kept F (drop (q_bad q) l) = kept F l.
Proof.
  intros (_ & B & _). unfold kept, drop. induction l as [|s r IH]; [reflexivity|]. cbn [filter].
  destruct (existsb (Nat.eqb (s_seq s)) (q_bad q)) eqn:E; cbn [negb filter].
  - apply mem_in in E. apply B in E. destruct E as (_ & E). rewrite E. exact IH.
  - rewrite IH. reflexivity.
Qed.

Lemma kept_views F : forall (rs : list (env W * request W)) v,
  history F rs v ->
  kept F (v_run (serve_views rs v)) = kept F (v_run v) ++ kept F (executed rs v).
Proof.
  induction rs as [|(e, q) rs IH]; intros v H0.
  - cbn. rewrite app_nil_r. reflexivity.
  - cbn [history] in H0. destruct H0 as (Wf & _ & H0).
    unfold serve_views. cbn [fold_left fst snd executed]. fold (serve_views rs (serve_view e q v)).
    rewrite (IH _ H0), kept_app, app_assoc. f_equal.
    unfold serve_view. destruct (q_seq q <=? v_last v) eqn:E.
    + apply Nat.leb_le in E. replace (v_last v <? q_seq q) with false by (symmetry; apply Nat.ltb_ge; lia).
      cbn. rewrite app_nil_r. reflexivity.
    + apply Nat.leb_gt in E. replace (v_last v <? q_seq q) with true by (symmetry; apply Nat.ltb_lt; lia).
      cbn [andb]. destruct (succeeds e (v_last v) q); cbn [v_run].
      * rewrite kept_app, (kept_drop F) by exact Wf. reflexivity.
      * rewrite (kept_drop F) by exact Wf. cbn. rewrite app_nil_r. reflexivity.
Qed.

Lemma history_app F : forall (a b : list (env W * request W)) v,
  history F (a ++ b) v <-> history F a v /\ history F b (serve_views a v).
Proof.
  induction a as [|(e, q) a IH]; intros b v; cbn [app history].
  - cbn. tauto.
  - unfold serve_views. cbn [fold_left fst snd]. fold (serve_views a (serve_view e q v)).
    rewrite IH. tauto.
Qed.

Lemma views_app (a b : list (env W * request W)) v :
  serve_views (a ++ b) v = serve_views b (serve_views a v).
Proof. unfold serve_views. apply fold_left_app. Qed.

Lemma after_prepare F (rs : list (env W * request W)) e q :
  history F (rs ++ [(e, q)]) empty_view ->
  q_kind q = KPrepare -> v_last (serve_views rs empty_view) < q_seq q ->
  v_run (serve_views (rs ++ [(e, q)]) empty_view)
  = kept F (executed (rs ++ [(e, q)]) empty_view).
Proof.
  intros H0 K Lt.
  pose proof (kept_views F _ _ H0) as E. cbn [v_run empty_view kept filter app] in E.
  rewrite <- E. clear E. unfold kept. symmetry. apply filter_id.
  apply history_app in H0. destruct H0 as (H1 & Wf & RO & _).
  pose proof (serve_all_rel F rs None empty_view (rel_empty F) H1) as R.
  set (o := fst (serve_all rs None)) in *. clearbody o.
  rewrite views_app. set (v := serve_views rs empty_view) in *. clearbody v.
  unfold serve_views. cbn [fold_left fst snd].
  pose proof (rel_le F o v R) as LE.
  assert (D : Forall (fun s => negb (F (s_seq s)) = true) (drop (q_bad q) (v_run v))).
  { pose proof (drop_forall (q_bad q) (v_run v)) as DF. rewrite Forall_forall in *.
    intros s Hs. apply negb_true_iff. destruct (F (s_seq s)) eqn:E; [|reflexivity]. destruct (DF s Hs).
    apply (proj1 (proj2 Wf)). split; [|exact E].
    apply filter_In in Hs. specialize (LE s (proj1 Hs)). lia. }
  unfold serve_view. replace (q_seq q <=? v_last v) with false by (symmetry; apply Nat.leb_gt; exact Lt).
  destruct (succeeds e (v_last v) q); cbn [v_run]; [|exact D].
  apply Forall_app. split; [exact D|]. rewrite (asked_eq F) by exact Wf. unfold own. rewrite K, app_nil_r.
  unfold ran. destruct (_ <? _); [|constructor]. apply Forall_forall. intros c Hc. apply filter_In in Hc.
  rewrite (proj2 (proj2 (proj2 Wf)) c (proj1 Hc)). reflexivity.
Qed.

Lemma follower_same F (rs : list (env W * request W)) :
  history F rs empty_view -> one_style rs ->
  uncommitted (apply_stmts (snd (serve_all rs None)) None) = uncommitted (fst (serve_all rs None)).
Proof.
  intros H0 OS. rewrite (refines F rs H0).
  destruct OS as [A|A].
  - eapply uncommitted_relf with (st := True).
    apply (follow_all F True rs None None empty_view); [|apply rel_empty|cbn; auto|exact H0].
    eapply Forall_impl; [|exact A]. cbn. auto.
  - eapply uncommitted_relf with (st := False).
    apply (follow_all F False rs None None empty_view); [|apply rel_empty|cbn; tauto|exact H0].
    eapply Forall_impl; [|exact A]. cbn. intros r Hr. right. split; [tauto|exact Hr].
Qed.

Lemma replay_same F (rs : list (env W * request W)) t bad :
  history F rs empty_view -> fst (serve_all rs None) = Some t ->
  (forall n p, In (n, p) (t_plans t) -> p <> PBegin -> ~ In n bad) ->
  uncommitted (replay bad (t_plans t)) = uncommitted (Some t).
Proof.
  intros H0 E N. pose proof (serve_all_rel F rs None empty_view (rel_empty F) H0) as R. rewrite E in R.
  destruct R as (_ & _ & I & _). pose proof (replay_inv bad t _ I N) as Q.
  unfold uncommitted at 2. rewrite (i_batch _ _ I), (i_rows _ _ I), rev_involutive.
  destruct (replay bad (t_plans t)) as [u|].
  - cbn. rewrite (i_batch _ _ Q), (i_rows _ _ Q), rev_involutive. reflexivity.
  - cbn. assert (E0 : v_run (serve_views rs empty_view) = []).
    { rewrite <- (rev_involutive (v_run _)), Q. reflexivity. }
    rewrite E0. reflexivity.
Qed.

(** One failed or given-up statement, seen from the state before it. *)
Lemma failed_request F (rs : list (env W * request W)) e q :
  history F (rs ++ [(e, q)]) empty_view ->
  (forall n, In n (q_bad q) -> ~ In n (map s_seq (v_run (serve_views rs empty_view)))) ->
  succeeds e (v_last (serve_views rs empty_view)) q = false ->
  uncommitted (fst (serve_all (rs ++ [(e, q)]) None)) = uncommitted (fst (serve_all rs None)).
Proof.
  intros H0 N Fl. rewrite (refines F _ H0). apply history_app in H0. destruct H0 as (H1 & _).
  rewrite (refines F _ H1), views_app. set (v := serve_views rs empty_view) in *. clearbody v.
  unfold serve_views. cbn [fold_left fst snd]. unfold serve_view.
  destruct (q_seq q <=? v_last v); [reflexivity|]. rewrite Fl. cbn [v_run].
  rewrite drop_id; [reflexivity|]. apply Forall_forall. intros s Hs Hb. apply (N _ Hb). apply in_map, Hs.
Qed.

Lemma given_up F (rs : list (env W * request W)) e1 q1 e2 q2 :
  history F (rs ++ [(e1, q1); (e2, q2)]) empty_view ->
  q_kind q1 = KDml -> q_cached q1 = [] -> F (q_seq q1) = true ->
  v_last (serve_views rs empty_view) < q_seq q1 < q_seq q2 ->
  (forall n, In n (q_bad q1) -> ~ In n (map s_seq (v_run (serve_views rs empty_view)))) ->
  q_kind q2 = KSelect \/ q_kind q2 = KPrepare -> q_cached q2 = [] ->
  uncommitted (fst (serve_all (rs ++ [(e1, q1); (e2, q2)]) None)) = uncommitted (fst (serve_all rs None)).
Proof.
  intros H0 K1 C1 F1 Lt N K2 C2. rewrite (refines F _ H0).
  apply history_app in H0. destruct H0 as (H1 & (Wf1 & _ & Wf2 & _)).
  rewrite (refines F _ H1), views_app.
  pose proof (rel_le F _ _ (serve_all_rel F rs None empty_view (rel_empty F) H1)) as LE.
  pose proof (serve_all_rel F rs None empty_view (rel_empty F) H1) as (_ & CL & _).
  set (v := serve_views rs empty_view) in *. clearbody v.
  unfold serve_views. cbn [fold_left fst snd].
  assert (D1 : drop (q_bad q1) (v_run v) = v_run v).
  { apply drop_id, Forall_forall. intros s Hs Hb. apply (N _ Hb). apply in_map, Hs. }
  assert (NF : Forall (fun s => F (s_seq s) = false) (v_run v)).
  { apply Forall_forall. intros s Hs. destruct (F (s_seq s)) eqn:E; [|reflexivity].
    exfalso. apply (N (s_seq s)); [|apply in_map, Hs]. apply (proj1 (proj2 Wf1)).
    rewrite Forall_forall in LE. specialize (LE s Hs). split; [lia|exact E]. }
  assert (D2 : drop (q_bad q2) (v_run v) = v_run v).
  { apply drop_id. eapply Forall_impl; [|exact NF]. cbn. intros s E Hb. apply (proj1 (proj2 Wf2)) in Hb.
    destruct Hb. congruence. }
  assert (A1 : asked (v_last v) q1 = [mkS (q_seq q1) (q_w q1) (q_rows q1)]).
  { rewrite (asked_eq F) by exact Wf1. unfold ran, own. rewrite C1, K1. cbn [filter].
    destruct (v_last v <? q_seq q1 - 1); reflexivity. }
  assert (A2 : forall n, asked n q2 = []).
  { intros n. rewrite (asked_eq F) by exact Wf2. unfold ran, own. rewrite C2. cbn [filter].
    destruct (n <? q_seq q2 - 1); destruct K2 as [-> | ->]; reflexivity. }
  assert (V1 : exists l, (l = [] \/ l = [mkS (q_seq q1) (q_w q1) (q_rows q1)]) /\
      v_run (serve_view e1 q1 v) = v_run v ++ l /\ v_last (serve_view e1 q1 v) < q_seq q2).
  { unfold serve_view. replace (q_seq q1 <=? v_last v) with false by (symmetry; apply Nat.leb_gt; lia).
    rewrite D1, A1. destruct (succeeds e1 (v_last v) q1); cbn [v_run v_last].
    - eexists. split; [right; reflexivity|]. split; [reflexivity|lia].
    - exists []. rewrite app_nil_r. split; [auto|]. split; [reflexivity|lia]. }
  destruct V1 as (l & El & V1 & V2). set (w := serve_view e1 q1 v) in *. clearbody w.
  assert (X : drop (q_bad q2) (v_run w) = v_run v).
  { rewrite V1, drop_app, D2. destruct El as [-> | ->]; cbn; [apply app_nil_r|].
    assert (M : existsb (Nat.eqb (q_seq q1)) (q_bad q2) = true).
    { apply mem_in. apply (proj1 (proj2 Wf2)). split; [lia|exact F1]. }
    rewrite M. cbn. apply app_nil_r. }
  unfold serve_view. replace (q_seq q2 <=? v_last w) with false by (symmetry; apply Nat.leb_gt; lia).
  rewrite X, A2, app_nil_r. destruct (succeeds e2 (v_last w) q2); reflexivity.
Qed.

End Statements.
