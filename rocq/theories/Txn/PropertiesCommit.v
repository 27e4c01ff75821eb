(** * C33: a distributed transaction commits everywhere or nowhere

    The region numbered [p] is the primary.  A history is any list of actions that are possible
    one after the other: statements and their retries, messages delivered late, repeatedly, out
    of order or never, executions that fail, time-outs at the primary, leader changes, a
    connection that breaks, a server that stops at any point (no further server action), and
    questions of secondaries to the primary.

    The claim is false of the code in general: the theorems ending in _refuted each show
    one way.  [calm_run] (CommitSpec.v) leaves exactly those out; the theorems ending in
    _partial hold for every history without them. *)
From Coq Require Import List Arith Lia Bool Sorted.
From Verif.Txn Require Import CommitModel CommitSpec CommitProofs.
Import ListNotations.

(** If one region commits the transaction, no region ever drops a statement that was not
    given up. *)
Theorem C33_all_or_nothing_partial :
  forall p acts s r done r' lost,
    calm_run p acts init s ->
    committed_with s r done -> dropped_with s r' lost ->
    forall k, In k lost -> given_up s k.
Proof. intros p acts s r done r' lost. exact (all_or_nothing p acts s r done r' lost). Qed.
Print Assumptions C33_all_or_nothing_partial.

(** A region that commits does so once, and with exactly the statements that were sent to
    it and not given up, each of them once and in order. *)
Theorem C33_commits_once_exactly_the_standing_statements_partial :
  forall p acts s r done,
    calm_run p acts init s -> committed_with s r done ->
    g_hist (s_reg s r) = [(true, done)] /\ StronglySorted lt done /\
    forall k, In k done <-> sent_to s r k /\ ~ given_up s k.
Proof. intros p acts s r done. exact (exactly_standing p acts s r done). Qed.
Print Assumptions C33_commits_once_exactly_the_standing_statements_partial.

(** When the user has been told "committed", the primary has committed, and every statement that
    stands is committed, or held by a region that is prepared with all of them; and no region
    will drop one later. *)
Theorem C33_told_committed_is_durable_partial :
  forall p acts s,
    calm_run p acts init s -> told_committed s ->
    (exists done, committed_with s p done) /\
    (forall r k, sent_to s r k -> ~ given_up s k ->
       (exists done, committed_with s r done /\ In k done) \/ holds_all_prepared s r) /\
    (forall more s' r lost k, calm_run p more s s' -> dropped_with s' r lost -> In k lost ->
       given_up s' k).
Proof.
  intros p acts s C T. destruct (told_means p acts s C T) as (A & B).
  split; [exact A|]. split; [exact B|]. intros more s' r lost k M D Hk.
  pose proof (calm_app p acts more init s s' C M) as C'.
  destruct (told_means p _ s' C' (proj2 (calm_end p more s s' M) T)) as ((done & X) & _).
  exact (all_or_nothing p _ s' p done r lost C' X D k Hk).
Qed.
Print Assumptions C33_told_committed_is_durable_partial.

(** When the user has been told "rolled back", no region has committed anything, and none will. *)
Theorem C33_told_rolled_back_is_final_partial :
  forall p acts s,
    calm_run p acts init s -> told_rolled_back s ->
    forall more s' r done, calm_run p more s s' -> ~ committed_with s' r done.
Proof.
  intros p acts s C T more s' r done M.
  exact (rolled_means p _ s' (calm_app p acts more init s s' C M) (proj1 (calm_end p more s s' M) T) r done).
Qed.
Print Assumptions C33_told_rolled_back_is_final_partial.

(** A prepared secondary is never stuck once the primary's transaction is gone: asking
    the primary once ends it, the way the primary ended, also when the server has died. *)
Theorem C33_prepared_secondary_ends_like_primary_partial :
  forall p acts s r pl,
    calm_run p acts init s -> r <> p ->
    g_pool (s_reg s r) = Some pl -> pl_prep pl = true -> g_pool (s_reg s p) = None ->
    exists s', calm_run p [AAsk r; AAnswer 0; AObey 0] s s' /\ g_pool (s_reg s' r) = None /\
      (((exists done, committed_with s p done) /\ committed_with s' r (pl_run pl)) \/
       ((forall done, ~ committed_with s p done) /\ dropped_with s' r (pl_run pl))).
Proof. intros p acts s r pl. exact (prepared_ends p acts s r pl). Qed.
Print Assumptions C33_prepared_secondary_ends_like_primary_partial.

(** ** Calm histories are not trivial *)

(** Send the request of the phase to a region, which executes it with this fate. *)
Definition at_region (r : nat) (f : fate) : list action := [ASend r; ADeliver 0 f].

(** Statement 2 on three regions; statement 3 done on region 1, failed on region 2 and given up;
    PREPARE, COMMIT; region 1 gets COMMIT twice, the server dies, region 2 asks. *)
Definition calm_commit : list action :=
  [ADml] ++ at_region 0 FOk ++ at_region 1 FOk ++ at_region 2 FOk ++ [AGood] ++
  [ADml] ++ at_region 1 FOk ++ at_region 2 FWarn ++ [AGiveUp] ++
  [APrep false [0; 1; 2]] ++ at_region 0 FOk ++ at_region 1 FOk ++ at_region 2 FOk ++
  [ADecide] ++ at_region 0 FOk ++ [ATold] ++ at_region 1 FOk ++ [ADeliver 0 FOk; ADeliver 6 FOk] ++
  [AAsk 2; AAnswer 0; AObey 0].

Example calm_commit_happens :
  exists s, calm_run 0 calm_commit init s /\ told_committed s /\ given_up s 3 /\
    sent_to s 1 2 /\ sent_to s 1 3 /\
    committed_with s 0 [2] /\ committed_with s 1 [2] /\ committed_with s 2 [2].
Proof.
  destruct (calm_exec 0 calm_commit init) as [s|] eqn:E; [|vm_compute in E; discriminate].
  exists s. split; [now apply calm_exec_run|].
  vm_compute in E. injection E as <-.
  repeat split; try (cbn; tauto);
    [exists (mkReq RDml 2 [] [])|exists (mkReq RDml 3 [] [])]; cbn; tauto.
Qed.

(** PREPARE fails on region 2; the primary is rolled back (tag); regions 1 and 2 drop their parts,
    region 1 after asking. *)
Definition calm_abort : list action :=
  [ADml] ++ at_region 0 FOk ++ at_region 1 FOk ++ at_region 2 FOk ++ [AGood] ++
  [APrep false [0; 1; 2]] ++ at_region 0 FOk ++ at_region 1 FOk ++ at_region 2 FPrep ++
  [AAbort] ++ at_region 0 FOk ++ at_region 2 FOk.

Example calm_abort_happens :
  exists s pl, calm_run 0 calm_abort init s /\ told_rolled_back s /\
    dropped_with s 0 [2] /\ dropped_with s 2 [2] /\
    g_pool (s_reg s 1) = Some pl /\ pl_prep pl = true /\ pl_run pl = [2] /\ g_pool (s_reg s 0) = None.
Proof.
  destruct (calm_exec 0 calm_abort init) as [s|] eqn:E; [|vm_compute in E; discriminate].
  exists s, (mkPool true true 3 [2] true false). split; [now apply calm_exec_run|].
  vm_compute in E. injection E as <-. repeat split; cbn; tauto.
Qed.

(** ** What breaks the claim in the code *)

Ltac trace := eexists; split; [vm_compute; reflexivity|].

(** A primary that wrote nothing (its only statement failed with a duplicate key) is rolled
    back without leaving the rollback tag; a prepared secondary that asks is told "committed". *)
Theorem C33_untagged_primary_refuted :
  exists acts s, run 0 acts init = Some s /\ told_rolled_back s /\
    committed_with s 1 [3] /\ dropped_with s 2 [3] /\ ~ given_up s 3.
Proof.
  exists ([ADml] ++ at_region 0 FWarn ++ [AGiveUp; ADml] ++ at_region 1 FOk ++ at_region 2 FOk ++
          [AGood; APrep false [0; 1; 2]] ++ at_region 0 FOk ++ at_region 1 FOk ++
          at_region 2 FPrep ++ [AAbort] ++ at_region 0 FOk ++ at_region 2 FOk ++
          [AAsk 1; AAnswer 0; AObey 0]).
  trace. repeat split; cbn; intuition lia.
Qed.
Print Assumptions C33_untagged_primary_refuted.

(** The same when the leader of a primary that wrote nothing is replaced: nothing of the
    transaction was replicated, so it vanishes, and vanished means "committed". *)
Theorem C33_lost_primary_refuted :
  exists acts s, run 0 acts init = Some s /\ told_rolled_back s /\
    committed_with s 1 [3] /\ dropped_with s 2 [3] /\ ~ given_up s 3.
Proof.
  exists ([ADml] ++ at_region 0 FWarn ++ [AGiveUp; ADml] ++ at_region 1 FOk ++ at_region 2 FOk ++
          [AGood; APrep false [0; 1; 2]] ++ at_region 0 FOk ++ [ALead 0] ++ at_region 1 FOk ++
          at_region 2 FPrep ++ [AAbort] ++ at_region 2 FOk ++
          [AAsk 1; AAnswer 0; AObey 0]).
  trace. repeat split; cbn; intuition lia.
Qed.
Print Assumptions C33_lost_primary_refuted.

(** A secondary asks before it is prepared; the answer "roll back" is computed from the state it
    reported then, and executed although it is prepared and the primary has committed. *)
Theorem C33_stale_answer_refuted :
  exists acts s, run 0 acts init = Some s /\ told_committed s /\
    committed_with s 0 [2] /\ dropped_with s 1 [2] /\ ~ given_up s 2.
Proof.
  exists ([ADml] ++ at_region 0 FOk ++ at_region 1 FOk ++ [AAsk 1; AGood; APrep false [0; 1]] ++
          at_region 0 FOk ++ at_region 1 FOk ++ [ADecide] ++ at_region 0 FOk ++ [ATold] ++
          [AAnswer 0; AObey 0]).
  trace. repeat split; cbn; intuition lia.
Qed.
Print Assumptions C33_stale_answer_refuted.

(** Removing a prepared transaction by force loses it after the user was told. *)
Theorem C33_forced_removal_refuted :
  exists acts s, run 0 acts init = Some s /\ told_committed s /\
    committed_with s 0 [2] /\ dropped_with s 1 [2] /\ ~ given_up s 2.
Proof.
  exists ([ADml] ++ at_region 0 FOk ++ at_region 1 FOk ++ [AGood; APrep false [0; 1]] ++
          at_region 0 FOk ++ at_region 1 FOk ++ [ADecide] ++ at_region 0 FOk ++ [ATold; AForce 1]).
  trace. repeat split; cbn; intuition lia.
Qed.
Print Assumptions C33_forced_removal_refuted.

(** PREPARE of a part without writes does not move its sequence number, so a given-up statement
    that arrives late is executed on the prepared part and committed. *)
Theorem C33_late_statement_refuted :
  exists acts s, run 0 acts init = Some s /\ told_committed s /\
    committed_with s 1 [3] /\ given_up s 3.
Proof.
  exists ([ADml] ++ at_region 0 FOk ++ [AGood; ADml] ++ at_region 1 FWarn ++ [AGiveUp] ++
          [APrep false [0; 1]] ++ at_region 0 FOk ++ at_region 1 FOk ++ [ADeliver 2 FOk] ++
          [ADecide] ++ at_region 0 FOk ++ [ATold] ++ at_region 1 FOk).
  trace. repeat split; cbn; intuition lia.
Qed.
Print Assumptions C33_late_statement_refuted.

(** The marks of finished transactions are cleared every ten minutes; a repeated PREPARE that
    carries its statement and arrives after that executes it again, and asking commits it again. *)
Theorem C33_forgotten_transaction_refuted :
  exists acts s, run 0 acts init = Some s /\ told_committed s /\
    g_hist (s_reg s 1) = [(true, [2]); (true, [2])].
Proof.
  exists ([APrep true [0; 1]] ++ at_region 0 FOk ++ at_region 1 FOk ++ [ADecide] ++ at_region 0 FOk ++
          [ATold] ++ at_region 1 FOk ++ [AForget 1; ADeliver 2 FOk; AAsk 1; AAnswer 0; AObey 0]).
  trace. repeat split; cbn; intuition lia.
Qed.
Print Assumptions C33_forgotten_transaction_refuted.

(** The first statement fails at the primary but BEGIN stays; the primary times out and marks
    the transaction finished without a tag; the retried statement, PREPARE and COMMIT are then all
    answered "done": the user is told "committed" and nothing was written anywhere. *)
Theorem C33_finished_mark_refuted :
  exists acts s, run 0 acts init = Some s /\ told_committed s /\
    sent_to s 0 2 /\ ~ given_up s 2 /\ forall r, ~ exists done, committed_with s r done /\ In 2 done.
Proof.
  exists ([ADml] ++ at_region 0 (FErr false true) ++ [ATimeout] ++ at_region 0 FOk ++
          [AGood; APrep false [0]] ++ at_region 0 FOk ++ [ADecide] ++ at_region 0 FOk ++ [ATold]).
  trace. repeat split.
  - exists (mkReq RDml 2 [] []). cbn. tauto.
  - cbn. tauto.
  - intros r (done & A & B). unfold committed_with in A. cbn [s_reg] in A.
    destruct r; cbn in A; [destruct A as [A|[]]; discriminate|destruct A].
Qed.
Print Assumptions C33_finished_mark_refuted.
