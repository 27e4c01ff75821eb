(** * C34: stopping and replaying the log leaves the same data

    A history is any list of events: entries handed over by raft, stops after any number of
    the writes of an entry, restarts from any earlier snapshot with any part of the log, and
    stops during a restart.  [straight] is the history without a stop.

    The claim is false of the code in general: the theorems ending in _refuted each show one
    way.  [all_covered] (Spec.v) leaves those stops out; the theorems ending in _partial hold
    for every history without them, whatever the log, the number of stops and the places. *)
From Coq Require Import List Arith ZArith Lia Bool.
From Verif.Apply Require Import Model Spec Proofs.
Import ListNotations.

(** When the store has caught up with the log, its data are those of the execution without
    a stop: the same batches in the same order, none missing, none twice. *)
Theorem C34_replay_leaves_the_same_data_partial :
  forall (W : Type) (log : list (entry W)) history x,
    proper log -> run log fresh history = Some x -> all_covered log fresh history ->
    caught_up log x ->
    exists y, straight log = Some y /\ d_data (disk_of x) = d_data (disk_of y).
Proof. intros W log history x. exact (same_data log history x). Qed.
Print Assumptions C34_replay_leaves_the_same_data_partial.

(** At every moment the store runs, its data are those of a prefix of the log that reaches
    at least to the last entry handed over, and its open transactions hold the statements of
    that prefix. *)
Theorem C34_running_store_partial :
  forall (W : Type) (log : list (entry W)) history d m pos,
    proper log -> run log fresh history = Some (Up d m pos) -> all_covered log fresh history ->
    exists n, pos <= n <= length log /\
      d_data d = sp_data (mean log n) /\
      forall t, match m_pool m t, sp_open (mean log n) t with
                | Some p, Some x => o_seq x = p_seq p /\ o_prep x = p_prep p /\
                                    o_run x = map (fun s => (s_seq s, s_w s)) (p_stmts p)
                | None, None => True
                | _, _ => False
                end.
Proof. intros W log history d m pos. exact (running log history d m pos). Qed.
Print Assumptions C34_running_store_partial.

(** Transactions recorded as rolled back were rolled back by the log, and those that must be
    recorded are. *)
Theorem C34_rollback_records_partial :
  forall (W : Type) (log : list (entry W)) history d m pos,
    proper log -> run log fresh history = Some (Up d m pos) -> all_covered log fresh history ->
    exists n, pos <= n <= length log /\
      (forall t, In t (d_tag d) -> In t (sp_rolled (mean log n))) /\
      (forall t, In t (sp_tag (mean log n)) -> In t (d_tag d)).
Proof. intros W log history d m pos. exact (records log history d m pos). Qed.
Print Assumptions C34_rollback_records_partial.

(** The execution without a stop does not fail, and makes durable what the log means. *)
Theorem C34_straight_execution :
  forall (W : Type) (log : list (entry W)), proper log ->
    exists y, straight log = Some y /\ caught_up log y /\
      d_data (disk_of y) = sp_data (mean log (length log)).
Proof. intros W log. exact (straight_means log). Qed.
Print Assumptions C34_straight_execution.

(** A store that stopped can always be restarted, and then catches up. *)
Theorem C34_restart_catches_up_partial :
  forall (W : Type) (log : list (entry W)) history d pos,
    proper log -> run log fresh history = Some (Down d pos) -> all_covered log fresh history ->
    exists more x, all_covered log fresh (history ++ more) /\
      run log fresh (history ++ more) = Some x /\ caught_up log x.
Proof. intros W log history d pos. exact (catches_up log history d pos). Qed.
Print Assumptions C34_restart_catches_up_partial.

(** ** A history that the theorems cover *)

Definition st (n w : nat) : stmt nat := mkStmt n w 1.

(** Two transactions, one of them in one phase, one write outside them, a rolled back one. *)
Definition sample : list (entry nat) :=
  [ EStmt 1 true [] (st 2 10); EOut 7 1; EStmt 1 true [] (st 3 11);
    EPrep 2 true [] 3 [st 2 20] true; EStmt 3 true [] (st 2 30);
    EPrep 1 true [3] 4 [] false; ERoll 3 true 3 true; ECommit 1 5 ].

Definition sample_history : list event :=
  [ Deliver; Deliver; Stop 0; Start 0 1; Deliver; Deliver; Deliver;
    Stop 3; Start 1 1; Deliver; Deliver; Stop 4; Start 2 1;
    Deliver; Deliver; Deliver; Stop 1; Start 3 1; Deliver; Deliver; Deliver;
    Stop 1; StopStart 2 1 0; Start 0 1; Deliver; Deliver; Deliver; Deliver; Deliver; Deliver; Deliver;
    Stop 2; Start 6 1; Deliver; Deliver ].

Definition data_of (x : option (node nat)) : option (list (list nat)) :=
  match x with Some y => Some (d_data (disk_of y)) | None => None end.

Example sample_covered :
  proper sample /\ all_covered sample fresh sample_history /\
  (exists d m, run sample fresh sample_history = Some (Up d m (length sample))) /\
  data_of (run sample fresh sample_history) = Some [[7]; [20]; [10]] /\
  data_of (straight sample) = Some [[7]; [20]; [10]].
Proof.
  split; [apply proper_ok; vm_compute; reflexivity|].
  split; [apply covered_ok; vm_compute; reflexivity|].
  split; [do 2 eexists; vm_compute; reflexivity|].
  split; vm_compute; reflexivity.
Qed.

(** ** Stops that the store does not survive *)

Ltac trace := split; [apply proper_ok; vm_compute; reflexivity|];
  split; [do 2 eexists; vm_compute; reflexivity|]; split; vm_compute; reflexivity.

(** A stop during the restart, after the replayed BEGIN put the applied index back to its own
    entry and before the index is put forward again: the write in between is applied twice. *)
Theorem C34_stop_during_restart_refuted :
  let log := [EStmt 1 true [] (st 2 10); EOut 7 1] in
  let history := [Deliver; Deliver; Stop 0; StopStart 0 1 1; Start 0 1; Deliver; Deliver] in
  proper log /\ (exists d m, run log fresh history = Some (Up d m (length log))) /\
  data_of (straight log) = Some [[7]] /\ data_of (run log fresh history) = Some [[7]; [7]].
Proof. cbv zeta. trace. Qed.
Print Assumptions C34_stop_during_restart_refuted.

(** Two stops: the first between the record that COMMIT is about to run and the commit itself,
    the second before PREPARE was applied again.  The second restart takes the record for a
    finished COMMIT: the committed transaction is lost. *)
Theorem C34_two_stops_around_commit_refuted :
  let log := [EStmt 1 true [] (st 2 10); EPrep 1 true [] 3 [] false; ECommit 1 4] in
  let history := [Deliver; Deliver; Stop 1; Start 0 1; Deliver; Stop 0; Start 0 1;
                  Deliver; Deliver; Deliver] in
  proper log /\ (exists d m, run log fresh history = Some (Up d m (length log))) /\
  data_of (straight log) = Some [[10]] /\ data_of (run log fresh history) = Some [].
Proof. cbv zeta. trace. Qed.
Print Assumptions C34_two_stops_around_commit_refuted.

(** A stop between the commit of a one-phase PREPARE and the record of it, when an earlier
    entry had begun the transaction: its statements are applied twice. *)
Theorem C34_one_phase_stop_refuted :
  let log := [EStmt 1 true [] (st 2 10); EPrep 1 true [] 4 [st 2 10; st 3 11] true] in
  let history := [Deliver; Stop 3; Start 0 1; Deliver; Deliver] in
  proper log /\ (exists d m, run log fresh history = Some (Up d m (length log))) /\
  data_of (straight log) = Some [[10; 11]] /\
  data_of (run log fresh history) = Some [[10; 11]; [10; 11]].
Proof. cbv zeta. trace. Qed.
Print Assumptions C34_one_phase_stop_refuted.

(** The raft log was truncated past the first statement of an open transaction: the statement
    is lost, and the transaction commits without it. *)
Theorem C34_truncated_log_refuted :
  let log := [EStmt 1 true [] (st 2 10); EOut 7 1; EStmt 1 true [] (st 3 11);
              EPrep 1 true [] 4 [] false; ECommit 1 5] in
  let history := [Deliver; Deliver; Stop 0; Start 2 2; Deliver; Deliver; Deliver] in
  proper log /\ (exists d m, run log fresh history = Some (Up d m (length log))) /\
  data_of (straight log) = Some [[7]; [10; 11]] /\
  data_of (run log fresh history) = Some [[7]; [11]].
Proof. cbv zeta. trace. Qed.
Print Assumptions C34_truncated_log_refuted.

(** The number of rows the region believes to hold is not the same after one ordinary restart
    while a transaction is open, although the history is covered and the data are the same. *)
Definition rows_of (x : option (node nat)) : option Z :=
  match x with Some y => Some (d_lines (disk_of y)) | None => None end.
Theorem C34_row_count_refuted :
  let log := [EStmt 1 true [] (st 2 10); EPrep 1 true [] 3 [] false; ECommit 1 4] in
  let history := [Deliver; Stop 0; Start 0 1; Deliver; Deliver; Deliver] in
  proper log /\ (exists d m, run log fresh history = Some (Up d m (length log))) /\
  all_covered log fresh history /\
  data_of (straight log) = data_of (run log fresh history) /\
  rows_of (straight log) = Some 1%Z /\ rows_of (run log fresh history) = Some 0%Z.
Proof.
  cbv zeta. split; [apply proper_ok; vm_compute; reflexivity|].
  split; [do 2 eexists; vm_compute; reflexivity|].
  split; [apply covered_ok; vm_compute; reflexivity|].
  split; [|split]; vm_compute; reflexivity.
Qed.
Print Assumptions C34_row_count_refuted.

(** [proper] is needed: a late copy of ROLLBACK that carries BEGIN, delivered after COMMIT, and
    a stop inside it while another transaction is open, replay the whole transaction. *)
Theorem C34_late_rollback_refuted :
  let log := [EStmt 2 true [] (st 2 20); EStmt 1 true [] (st 2 10); EPrep 1 true [] 3 [] false;
              ECommit 1 4; ERoll 1 true 4 true] in
  let history := [Deliver; Deliver; Deliver; Deliver; Stop 1; Start 0 1;
                  Deliver; Deliver; Deliver; Deliver; Deliver] in
  (exists d m, run log fresh history = Some (Up d m (length log))) /\
  all_covered log fresh history /\
  data_of (straight log) = Some [[10]] /\ data_of (run log fresh history) = Some [[10]; [10]].
Proof.
  cbv zeta.
  split; [do 2 eexists; vm_compute; reflexivity|].
  split; [apply covered_ok; vm_compute; reflexivity|].
  split; vm_compute; reflexivity.
Qed.
Print Assumptions C34_late_rollback_refuted.
