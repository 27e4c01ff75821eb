(* C09, C10: the timestamp oracle. *)
From Verif.Tso Require Import Model Spec Proofs ProofsClient.
Local Open Scope Z_scope.

(* ---------- C09 ----------
   Full property: in every execution, every answer is above all earlier answers.
   It is false (the refutations below); what holds in every execution made of
   [ordinary] steps, including clock jumps, leader changes, crashes, restarts and
   snapshot installs, is uniqueness, and order for answers of one node and for
   answers of the current raft leader. *)
Theorem C09_unique_partial : forall ls c o1 o2,
  Forall ordinary ls -> run init_cluster ls = Some c -> answered_before c o1 o2 -> no_common o1 o2.
Proof. exact unique_run. Qed.
Print Assumptions C09_unique_partial.
Theorem C09_monotone_partial : forall ls c o1 o2,
  Forall ordinary ls -> run init_cluster ls = Some c -> answered_before c o1 o2 ->
  o_node o1 = o_node o2 \/ o_fresh o2 = true -> all_smaller o1 o2.
Proof. exact monotone_run. Qed.
Print Assumptions C09_monotone_partial.

Definition start1 : list label := [Elect 1 1000; LsCommit 1; Apply 1; LsStore 1].
Definition start2 : list label := [Apply 2; Lose; Elect 2 2000; LsCommit 2; Apply 2; LsStore 2].
Definition gen (n k : Z) : list label := [GenReq n k; GenTry n 0].

Example C09_nonvacuous :
  let ls := start1 ++ gen 1 5 ++ [Tick 1 1100; TickCommit 1; Apply 1] ++ gen 1 7
            ++ [Snap 1; Restart 1; Apply 2] ++ start2 ++ [Restart 2; Apply 2; Apply 2; Apply 2; Elect 2 0; LsCommit 2; Apply 2; LsStore 2]
            ++ gen 2 3 in
  Forall ordinary ls /\
  option_map (fun c => map (fun o => (o_p o, o_l o, o_count o)) (outs c)) (run init_cluster ls)
  = Some [(7002, 0, 3); (1100, 0, 7); (1000, 0, 5)].
Proof. split; [repeat constructor|vm_compute; reflexivity]. Qed.

(* A leader that has lost its majority but has not been told yet answers with a
   timestamp below one the new leader already issued. *)
Theorem C09_stale_leader_refuted : exists ls c o1 o2,
  Forall ordinary ls /\ run init_cluster ls = Some c /\ answered_before c o1 o2 /\
  forall p l p' l', issued o1 p l -> issued o2 p' l' -> ts_lt p' l' p l.
Proof.
  set (ls := start1 ++ [GenReq 1 5] ++ start2 ++ gen 2 5 ++ [GenTry 1 0]).
  destruct (run init_cluster ls) as [c|] eqn:E; [|vm_compute in E; discriminate].
  assert (EO : outs c = [mk_out 1 1000 0 5 1 false; mk_out 2 4001 0 5 2 true]).
  { assert (Q : option_map outs (run init_cluster ls) = Some [mk_out 1 1000 0 5 1 false; mk_out 2 4001 0 5 2 true])
      by (vm_compute; reflexivity). rewrite E in Q. cbn in Q. congruence. }
  exists ls, c, (mk_out 2 4001 0 5 2 true), (mk_out 1 1000 0 5 1 false).
  split; [repeat constructor|]. split; auto. split; [exists [], [], []; auto|].
  intros p l p' l' [A _] [B _]. cbn in A, B. left. lia.
Qed.
Print Assumptions C09_stale_leader_refuted.

(* Two answers of positive size that share a timestamp. *)
Definition duplicate (ls : list label) : Prop :=
  exists c o1 o2, run init_cluster ls = Some c /\ answered_before c o1 o2 /\
    0 < o_count o1 /\ 0 < o_count o2 /\ ~ no_common o1 o2.
Lemma dup_check ls o2 o1 rest :
  option_map outs (run init_cluster ls) = Some (o2 :: o1 :: rest) ->
  o_p o1 = o_p o2 -> o_l o1 = o_l o2 -> 0 < o_count o1 -> 0 < o_count o2 -> duplicate ls.
Proof.
  intros E P L C1 C2. destruct (run init_cluster ls) as [c|] eqn:R; [|discriminate]. cbn in E. injection E as E.
  exists c, o1, o2. split; auto. split; [exists [], [], rest; auto|]. repeat split; auto.
  intros H. apply (H (o_p o1) (o_l o1)); split; auto; lia.
Qed.

Ltac ordy := cbn [app start1 start2 gen];
  repeat (apply Forall_cons; [first [left; exact I|left; cbn; lia|right; eauto 10]|]); apply Forall_nil.

(* The start thread of a leadership that ended meanwhile still sets the leader
   flag: two nodes then serve the same timestamps. *)
Theorem C09_late_start_refuted : exists ls, duplicate ls /\
  Forall (fun a => ordinary a \/ exists n, a = LsStoreLate n) ls.
Proof.
  exists ([Elect 1 1000; LsCommit 1; Apply 1; Lose; Stop 1] ++ start2 ++ [LsStoreLate 1; Apply 1] ++ gen 2 5 ++ gen 1 5).
  split; [eapply dup_check; [vm_compute; reflexivity|reflexivity..]|]. ordy.
Qed.
Print Assumptions C09_late_start_refuted.

(* gen_tso does not look at the leader flag again while it waits for the clock. *)
Theorem C09_late_request_refuted : exists ls, duplicate ls /\
  Forall (fun a => ordinary a \/ exists n i, a = GenTryLate n i) ls.
Proof.
  exists (start1 ++ [GenReq 1 5] ++ [Lose; Stop 1] ++ start2 ++ gen 2 5 ++ [Apply 1; GenTryLate 1 0]).
  split; [eapply dup_check; [vm_compute; reflexivity|reflexivity..]|]. ordy.
Qed.
Print Assumptions C09_late_request_refuted.

(* A clock update computed in an earlier leadership of the same node is accepted
   again when its physical part is equal, and resets the logical part. *)
Theorem C09_late_update_refuted : exists ls, duplicate ls /\
  Forall (fun a => ordinary a \/ exists n, a = TickCommitLate n) ls.
Proof.
  exists (start1 ++ [Tick 1 50000; Lose; Stop 1; Elect 1 50000; LsCommit 1; Apply 1; LsStore 1] ++ gen 1 5
          ++ [TickCommitLate 1; Apply 1] ++ gen 1 5).
  split; [eapply dup_check; [vm_compute; reflexivity|reflexivity..]|]. ordy.
Qed.
Print Assumptions C09_late_update_refuted.

(* A request for a negative number of timestamps moves the clock back. *)
Theorem C09_negative_count_refuted : exists ls, duplicate ls /\
  Forall (fun a => ordinary a \/ exists n k, a = GenReq n k) ls.
Proof.
  exists (start1 ++ gen 1 5 ++ gen 1 (-5) ++ gen 1 5).
  split; [|ordy].
  destruct (run init_cluster (start1 ++ gen 1 5 ++ gen 1 (-5) ++ gen 1 5)) as [c|] eqn:E; [|vm_compute in E; discriminate].
  set (x := mk_out 1 1000 0 5 1 true). set (y := mk_out 1 1000 5 (-5) 1 true).
  assert (EO : outs c = [x; y; x]).
  { assert (Q : option_map outs (run init_cluster (start1 ++ gen 1 5 ++ gen 1 (-5) ++ gen 1 5)) = Some [x; y; x])
      by (vm_compute; reflexivity). rewrite E in Q. cbn in Q. congruence. }
  exists c, x, x. split; auto. split; [exists [], [y], []; auto|]. repeat split; try (cbn; lia).
  intros H. apply (H 1000 0); split; cbn; lia.
Qed.
Print Assumptions C09_negative_count_refuted.

(* An unforced reset to the present physical time is accepted and resets the logical part. *)
Theorem C09_reset_refuted : exists ls, duplicate ls /\
  Forall (fun a => ordinary a \/ exists n p l s, a = ResetReq n p l s false) ls.
Proof.
  exists (start1 ++ gen 1 5 ++ [ResetReq 1 1000 0 4000 false; Apply 1] ++ gen 1 5).
  split; [eapply dup_check; [vm_compute; reflexivity|reflexivity..]|]. ordy.
Qed.
Print Assumptions C09_reset_refuted.

(* ---------- C10 ---------- *)
Theorem C10_usable : forall ls c o p l,
  Forall sane ls -> run init_cluster ls = Some c -> In o (outs c) -> issued o p l -> 0 <= l < 2 ^ 18.
Proof. exact usable. Qed.
Print Assumptions C10_usable.
(* hence the packed 64-bit timestamps order as the pairs do *)
Theorem C10_packed_order : forall p l p' l',
  0 <= l < 2 ^ 18 -> 0 <= l' < 2 ^ 18 -> (pack p l < pack p' l' <-> ts_lt p l p' l').
Proof. exact pack_lt. Qed.
Print Assumptions C10_packed_order.
(* clients of one batch: as many sub-ranges as clients, of the sizes asked for, inside
   the range granted for the sum, each ending before the next begins *)
Theorem C10_batch : forall cs p l, Forall (fun c => 0 < c) cs ->
  let rs := process_response p l cs in
  map (fun r => snd r) rs = cs /\
  (forall r, In r rs -> fst (fst r) = p /\ l <= snd (fst r) /\ snd (fst r) + snd r <= l + batch_count cs) /\
  (forall a r1 b r2 d, rs = a ++ r1 :: b ++ r2 :: d -> snd (fst r1) + snd r1 <= snd (fst r2)).
Proof. exact batch_ranges. Qed.
Print Assumptions C10_batch.
(* the store's local cache of N timestamps: no value is returned twice and every
   value belongs to a range the service granted *)
Theorem C10_store_cache : forall N cs vs rs,
  0 < N -> store_calls N (mk_sc 0 0 0) cs = (vs, rs) -> ranges_increase N rs ->
  NoDup vs /\ (forall v, In v vs -> exists p l, In (p, l) rs /\ pack p l <= v < pack p l + N).
Proof. exact store_calls_from_start. Qed.
Print Assumptions C10_store_cache.
Example C10_nonvacuous :
  process_response 1000 7 [2; 3; 1] = [(1000, 7, 2); (1000, 9, 3); (1000, 12, 1)] /\
  store_calls 2 (mk_sc 0 0 0) [(false, Some (5, 1)); (false, None); (false, Some (6, 9)); (true, None); (false, Some (0, 0))]
  = ([1310721; 1310722; 1572873; 1572874], [(5, 1); (6, 9)]) /\
  ranges_increase 2 [(5, 1); (6, 9)].
Proof.
  split; [reflexivity|]. split; [vm_compute; reflexivity|]. split.
  - intros p' l' [H|[]]. inversion H. vm_compute. discriminate.
  - split; [intros p' l' []|exact I].
Qed.
