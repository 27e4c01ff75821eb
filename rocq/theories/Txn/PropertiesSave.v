(** * C35: a failed or given-up statement leaves no trace in its transaction *)
From Coq Require Import List ZArith Lia Bool Arith.
From Verif.Txn Require Import SaveModel SaveSpec SaveProofs.
Import ListNotations.

(** For every history of requests - data statements, SELECT FOR UPDATE, SELECT
    and PREPARE, repeated or not, failing or not, with any numbers given up -
    the uncommitted writes and the row count delta of the region are those of
    the statements that stand, in order. *)
Theorem C35_region_holds_standing_statements :
  forall (W : Type) (F : nat -> bool) (rs : list (env W * request W)),
    history F rs empty_view ->
    uncommitted (fst (serve_all rs None)) =
    (writes (v_run (serve_views rs empty_view)), rows (v_run (serve_views rs empty_view))).
Proof. intros W F rs H. exact (refines F rs H). Qed.
Print Assumptions C35_region_holds_standing_statements.

(** A request that fails restores exactly the state before it. *)
Theorem C35_failed_statement_leaves_no_trace :
  forall (W : Type) (F : nat -> bool) (rs : list (env W * request W)) e q,
    history F (rs ++ [(e, q)]) empty_view ->
    (forall n, In n (q_bad q) -> ~ In n (map s_seq (v_run (serve_views rs empty_view)))) ->
    succeeds e (v_last (serve_views rs empty_view)) q = false ->
    uncommitted (fst (serve_all (rs ++ [(e, q)]) None)) = uncommitted (fst (serve_all rs None)).
Proof. intros W F rs e q. exact (failed_request F rs e q). Qed.
Print Assumptions C35_failed_statement_leaves_no_trace.

(** A statement that succeeded here but was given up (it failed elsewhere) is
    undone by the next SELECT or PREPARE, which restores exactly the state
    before the statement, whether or not that request itself succeeds. *)
Theorem C35_given_up_statement_leaves_no_trace :
  forall (W : Type) (F : nat -> bool) (rs : list (env W * request W)) e1 q1 e2 q2,
    history F (rs ++ [(e1, q1); (e2, q2)]) empty_view ->
    q_kind q1 = KDml -> q_cached q1 = [] -> F (q_seq q1) = true ->
    v_last (serve_views rs empty_view) < q_seq q1 < q_seq q2 ->
    (forall n, In n (q_bad q1) -> ~ In n (map s_seq (v_run (serve_views rs empty_view)))) ->
    q_kind q2 = KSelect \/ q_kind q2 = KPrepare -> q_cached q2 = [] ->
    uncommitted (fst (serve_all (rs ++ [(e1, q1); (e2, q2)]) None)) = uncommitted (fst (serve_all rs None)).
Proof. intros W F rs e1 q1 e2 q2. exact (given_up F rs e1 q1 e2 q2). Qed.
Print Assumptions C35_given_up_statement_leaves_no_trace.

(** What PREPARE freezes is exactly what was executed and not given up. *)
Theorem C35_prepared_is_executed_minus_given_up :
  forall (W : Type) (F : nat -> bool) (rs : list (env W * request W)) e q,
    history F (rs ++ [(e, q)]) empty_view ->
    q_kind q = KPrepare -> v_last (serve_views rs empty_view) < q_seq q ->
    let l := kept F (executed (rs ++ [(e, q)]) empty_view) in
    uncommitted (fst (serve_all (rs ++ [(e, q)]) None)) = (writes l, rows l).
Proof.
  intros W F rs e q H K L. cbv zeta. rewrite <- (after_prepare F rs e q H K L). exact (refines F _ H).
Qed.
Print Assumptions C35_prepared_is_executed_minus_given_up.

(** A follower that applies the log of the group holds the same uncommitted
    writes and the same row count delta as the leader. *)
Theorem C35_follower_holds_the_same :
  forall (W : Type) (F : nat -> bool) (rs : list (env W * request W)),
    history F rs empty_view -> one_style rs ->
    uncommitted (apply_stmts (snd (serve_all rs None)) None) = uncommitted (fst (serve_all rs None)).
Proof. intros W F rs. exact (follower_same F rs). Qed.
Print Assumptions C35_follower_holds_the_same.

(** So does a peer that is rebuilt from the statements the leader keeps. *)
Theorem C35_rebuilt_peer_holds_the_same :
  forall (W : Type) (F : nat -> bool) (rs : list (env W * request W)) t bad,
    history F rs empty_view -> fst (serve_all rs None) = Some t ->
    (forall n p, In (n, p) (t_plans t) -> p <> PBegin -> ~ In n bad) ->
    uncommitted (replay bad (t_plans t)) = uncommitted (Some t).
Proof. intros W F rs t bad. exact (replay_same F rs t bad). Qed.
Print Assumptions C35_rebuilt_peer_holds_the_same.

(** ** Non-vacuity: INSERT 2, INSERT 3 fails after a write, INSERT 4 is given up,
    the request of INSERT 5 is refused by raft and sent again, PREPARE 6 *)
Definition ok : env nat := mkE (fun _ => None) true.
Definition noraft : env nat := mkE (fun _ => None) false.
Definition fails (n : nat) : env nat := mkE (fun k => if k =? n then Some [99] else None) true.
Definition ex_F (n : nat) : bool := (n =? 3) || (n =? 4).
Definition ex_rs : list (env nat * request nat) :=
  [(ok, mkQ KDml 2 [] [] [20; 21] 2); (fails 3, mkQ KDml 3 [] [] [30] 1);
   (ok, mkQ KDml 4 [3] [] [40] 1); (noraft, mkQ KDml 5 [3; 4] [] [50] (-1));
   (ok, mkQ KDml 5 [3; 4] [] [50] (-1)); (ok, mkQ KDml 5 [3; 4] [] [50] (-1))].
Definition ex_prepare : request nat := mkQ KPrepare 6 [3; 4] [] [] 0.

Example C35_example :
  history ex_F (ex_rs ++ [(ok, ex_prepare)]) empty_view /\ one_style (ex_rs ++ [(ok, ex_prepare)]) /\
  v_last (serve_views ex_rs empty_view) < 6 /\
  uncommitted (fst (serve_all (ex_rs ++ [(ok, ex_prepare)]) None)) = ([20; 21; 50], 1%Z) /\
  uncommitted (apply_stmts (snd (serve_all (ex_rs ++ [(ok, ex_prepare)]) None)) None) = ([20; 21; 50], 1%Z).
Proof.
  assert (WF : forall k n w r bad, 2 <= n -> bad = filter ex_F (seq 0 n) -> @well_formed nat ex_F (mkQ k n bad [] w r)).
  { intros k n w r bad N ->. unfold well_formed. cbn [q_seq q_bad q_cached map app].
    split; [exact N|]. split.
    - intros m. rewrite filter_In, in_seq. intuition lia.
    - split; [cbn; lia|]. intros c []. }
  split; [|split; [|split; [|split]]].
  - cbn [ex_rs app history].
    repeat (split; [apply WF; [lia|reflexivity]|split; [exact Logic.I|]]). exact Logic.I.
  - left. repeat (apply Forall_cons; [cbn; discriminate|]). constructor.
  - apply Nat.ltb_lt. reflexivity.
  - reflexivity.
  - reflexivity.
Qed.

(** The hypotheses of the given-up theorem on the same transaction. *)
Example C35_given_up_example :
  let rs := [(ok, mkQ KDml 2 [] [] [20; 21] 2); (fails 3, mkQ KDml 3 [] [] [30] 1)] in
  uncommitted (fst (serve_all (rs ++ [(ok, mkQ KDml 4 [3] [] [40] 1)]) None)) = ([20; 21; 40], 3%Z) /\
  uncommitted (fst (serve_all (rs ++ [(ok, mkQ KDml 4 [3] [] [40] 1); (ok, mkQ KSelect 5 [3; 4] [] [] 0)]) None))
  = ([20; 21], 2%Z).
Proof. split; reflexivity. Qed.

(** An autocommit statement: it travels with PREPARE as a cached one. *)
Example C35_autocommit_example :
  uncommitted (fst (serve_all [(ok, mkQ KPrepare 3 [] [mkS 2 [20] 1] [] 0)] None)) = ([20], 1%Z) /\
  uncommitted (fst (serve_all [(fails 2, mkQ KPrepare 3 [] [mkS 2 [20] 1] [] 0)] None)) = ([], 0%Z).
Proof. split; reflexivity. Qed.

(** ** Where the code deviates *)

(** In key-value mode the leader puts its running total of the row count into
    each entry and the follower adds the totals up: after two inserts of one
    row each the leader counts 2 rows and the follower 3
    (region.cpp 1155-1163, 4093). *)
Theorem C35_key_value_row_count_refuted :
  exists (q1 q2 : request nat) l1 l2,
    fst (serve ok q1 None) = Some l1 /\ fst (serve ok q2 (Some l1)) = Some l2 /\
    t_rows l2 = 2%Z /\
    exists f, apply_kv q2 (t_rows l2) (apply_kv q1 (t_rows l1) None) = Some f /\
    t_batch f = t_batch l2 /\ t_rows f = 3%Z.
Proof.
  exists (mkQ KDml 2 [] [] [20] 1), (mkQ KDml 3 [] [] [30] 1).
  eexists. eexists. split; [cbv; reflexivity|]. split; [cbv; reflexivity|]. split; [reflexivity|].
  eexists. split; [cbv; reflexivity|]. split; reflexivity.
Qed.
Print Assumptions C35_key_value_row_count_refuted.

(** A SELECT that arrives late moves the region's number backwards, so a
    repeated INSERT that arrives after it is executed a second time
    (transaction.h 349-354 overwrites the number; region.cpp 858-885 lets a
    repeated SELECT through).  The histories of the theorems above exclude only
    this: a SELECT numbered below what the region has already served. *)
Theorem C35_late_select_refuted :
  exists (sel ins : request nat),
    well_formed (fun _ => false) sel /\ well_formed (fun _ => false) ins /\
    uncommitted (fst (serve_all [(ok, sel); (ok, ins)] None)) = ([30], 1%Z) /\
    uncommitted (fst (serve_all [(ok, sel); (ok, ins); (ok, sel); (ok, ins)] None)) = ([30; 30], 2%Z).
Proof.
  exists (mkQ KSelect 2 [] [] [] 0), (mkQ KDml 3 [] [] [30] 1).
  assert (WF : forall k n w r, 2 <= n -> @well_formed nat (fun _ => false) (mkQ k n [] [] w r)).
  { intros k n w r N. unfold well_formed. cbn [q_seq q_bad q_cached map app].
    split; [exact N|]. split; [|split; [cbn; lia|intros c []]].
    intros m. cbn. intuition discriminate. }
  split; [apply WF; lia|]. split; [apply WF; lia|]. split; reflexivity.
Qed.
Print Assumptions C35_late_select_refuted.

(** Rolling back works only from the top of the stack: a number below a standing
    one is ignored.  The discipline of the SQL node keeps this case away: a
    statement is given up before the next one is sent. *)
Theorem C35_below_the_top_is_ignored_refuted :
  exists (t : txn nat),
    fst (serve_all [(ok, mkQ KDml 2 [] [] [20] 1); (ok, mkQ KDml 3 [] [] [30] 1)] None) = Some t /\
    t_batch (rollback_list [2] t) = [20; 30] /\ t_batch (rollback_list [3; 2] t) = [].
Proof. eexists. split; [cbv; reflexivity|]. split; reflexivity. Qed.
Print Assumptions C35_below_the_top_is_ignored_refuted.
