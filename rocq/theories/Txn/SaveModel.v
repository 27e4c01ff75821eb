(** * One region's part of a transaction: statements, save points, partial rollback

    Models the in-memory state that a store keeps for one open transaction of
    one region (class [Transaction]), and the code that runs the statements of
    the transaction against it: on the leader, on a follower that applies the
    raft log, and on a peer that is rebuilt from the cached plans.

    What a statement writes is an abstract list of write operations [W]; whether
    it fails, and what it had already written when it failed, is chosen by the
    environment.  Row locks, rocksdb's own snapshot and the plan trees are not
    modelled. *)
From Coq Require Import List ZArith Lia Bool Arith.
Import ListNotations.

(** The kinds of request that carry a sequence number and go through
    [Region::exec_in_txn_query] (/repo/src/store/region.cpp 949-1218); COMMIT and
    ROLLBACK end the transaction and are modelled in [CommitModel]. *)
Inductive kind := KDml | KForUpdate | KSelect | KPrepare.

Section Save.
Context {W : Type}.

(** A data statement: its sequence number, its writes, and by how much it
    changes the number of rows of the region ([RuntimeState::num_increase_rows]). *)
Record stmt := mkS { s_seq : nat; s_w : list W; s_rows : Z }.

(** An entry of [_cache_plan_map] (/repo/include/engine/transaction.h, field
    [_cache_plan_map]): BEGIN, PREPARE, or a data statement. *)
Inductive plan := PBegin | PPrepare | PStmt (s : stmt).

(** Class [Transaction] (/repo/include/engine/transaction.h 640-700), the fields
    that matter for partial rollback.  [t_batch] is the rocksdb write batch of
    the open transaction and [t_rsp] rocksdb's own stack of save points (what
    the batch was at each [SetSavePoint]); [t_sseq] and [t_srows] are the two
    stacks BaikalDB keeps beside it, top first; [t_req] is the set
    [_current_req_point_seq] in increasing order; [t_plans] is the map
    [_cache_plan_map] in key order. *)
Record txn := mkT {
  t_seq : nat;
  t_batch : list W;
  t_rsp : list (list W);
  t_sseq : list nat;
  t_srows : list Z;
  t_req : list nat;
  t_plans : list (nat * plan);
  t_rows : Z;
  t_dml : bool;
  t_prepared : bool
}.

(** std::set<int>::insert on a list in increasing order. *)
Fixpoint set_insert (x : nat) (l : list nat) : list nat :=
  match l with
  | [] => [x]
  | y :: r => if x <? y then x :: l else if x =? y then l else y :: set_insert x r
  end.

(** The loops that copy [need_rollback_seq] of a request into a std::set<int>
    (region.cpp 2002-2004, 3029-3032, 4023-4026, 4412-4415). *)
Definition to_set (l : list nat) : list nat := fold_right set_insert [] l.

(** std::map<int, CachePlan>::insert on a list in key order. *)
Fixpoint map_insert (k : nat) (p : plan) (l : list (nat * plan)) : list (nat * plan) :=
  match l with
  | [] => [(k, p)]
  | (k', p') :: r => if k <? k' then (k, p) :: l
                     else if k =? k' then l else (k', p') :: map_insert k p r
  end.

(** [_cache_plan_map.erase(seq)]. *)
Definition map_erase (k : nat) (l : list (nat * plan)) : list (nat * plan) :=
  filter (fun e => negb (fst e =? k)) l.

Definition map_mem (k : nat) (l : list (nat * plan)) : bool :=
  existsb (fun e => fst e =? k) l.

(** [Transaction::begin] (/repo/src/engine/transaction.cpp 148-203): an empty
    batch, no save points, [_current_req_point_seq] = {1}. *)
Definition fresh : txn := mkT 0 [] [] [] [] [1] [] 0 false false.

(** [Transaction::set_seq_id] (transaction.h 278-284). *)
Definition set_seq_id (n : nat) (t : txn) : txn :=
  if n <? t_seq t then t
  else mkT n (t_batch t) (t_rsp t) (t_sseq t) (t_srows t) (t_req t) (t_plans t)
           (t_rows t) (t_dml t) (t_prepared t).

(** [Transaction::push_cmd_to_cache] (transaction.cpp 1250-1262).  The sequence
    number is overwritten even by a smaller one. *)
Definition push_cmd (n : nat) (p : plan) (t : txn) : txn :=
  if map_mem n (t_plans t)
  then mkT n (t_batch t) (t_rsp t) (t_sseq t) (t_srows t) (t_req t) (t_plans t)
           (t_rows t) (t_dml t) (t_prepared t)
  else mkT n (t_batch t) (t_rsp t) (t_sseq t) (t_srows t) (t_req t)
           (map_insert n p (t_plans t)) (t_rows t)
           (t_dml t || match p with PBegin => false | _ => true end) (t_prepared t).

(** [Transaction::set_save_point] (transaction.cpp 1508-1523). *)
Definition set_save_point (t : txn) : txn :=
  let push := match t_sseq t with [] => true | top :: _ => top <? t_seq t end in
  if push
  then mkT (t_seq t) (t_batch t) (t_batch t :: t_rsp t) (t_seq t :: t_sseq t)
           (t_rows t :: t_srows t) (set_insert (t_seq t) (t_req t)) (t_plans t)
           (t_rows t) (t_dml t) (t_prepared t)
  else t.

(** The common part of [rollback_to_point] and [rollback_current_request]:
    if the top save point has this number, restore the row count, pop both
    stacks and call rocksdb's [RollbackToSavePoint], which restores the batch
    and pops rocksdb's own stack (transaction.cpp 1540-1547, 1567-1575). *)
Definition pop_point (n : nat) (t : txn) : txn :=
  match t_sseq t, t_srows t, t_rsp t with
  | top :: ss, rows :: rs, b :: bs =>
      if top =? n
      then mkT (t_seq t) b bs ss rs (t_req t) (t_plans t) rows (t_dml t) (t_prepared t)
      else t
  | _, _, _ => t
  end.

Definition erase_plan (n : nat) (t : txn) : txn :=
  mkT (t_seq t) (t_batch t) (t_rsp t) (t_sseq t) (t_srows t) (t_req t)
      (map_erase n (t_plans t)) (t_rows t) (t_dml t) (t_prepared t).

(** [Transaction::rollback_to_point] (transaction.cpp 1525-1548).  The set
    [_need_rollback_seq] it also fills only travels with the cached plans and is
    always contained in the list of the request. *)
Definition rollback_to_point (t : txn) (n : nat) : txn := pop_point n (erase_plan n t).

(** The loop over [need_rollback_seq] from its largest element down
    (region.cpp 2022-2026, 3034-3039, 4027-4032, 4416-4421). *)
Definition rollback_list (bad : list nat) (t : txn) : txn :=
  fold_left rollback_to_point (rev (to_set bad)) t.

(** The loop of [Transaction::rollback_current_request] from the largest element
    of [_current_req_point_seq] down to, but not including, its first. *)
Fixpoint undo_req (first : nat) (ns : list nat) (t : txn) : txn :=
  match ns with
  | [] => t
  | n :: r => if n =? first then t else undo_req first r (pop_point n (erase_plan n t))
  end.

(** [Transaction::rollback_current_request] (transaction.cpp 1550-1582). *)
Definition rollback_current_request (t : txn) : txn :=
  match t_req t with
  | [] => t
  | [_] => t
  | first :: _ =>
      let u := undo_req first (rev (t_req t)) t in
      mkT first (t_batch u) (t_rsp u) (t_sseq u) (t_srows u) [first] (t_plans u)
          (t_rows u) (t_dml u) (t_prepared u)
  end.

(** [Transaction::clear_current_req_point_seq] (transaction.h 557-560). *)
Definition clear_req (t : txn) : txn :=
  mkT (t_seq t) (t_batch t) (t_rsp t) (t_sseq t) (t_srows t) [t_seq t] (t_plans t)
      (t_rows t) (t_dml t) (t_prepared t).

(** [Transaction::normal_select_update_txn_status] (transaction.h 349-354). *)
Definition select_status (n : nat) (t : txn) : txn :=
  mkT n (t_batch t) (t_rsp t) (t_sseq t) (t_srows t) [n] (t_plans t)
      (t_rows t) (t_dml t) (t_prepared t).

Definition add_writes (ws : list W) (t : txn) : txn :=
  mkT (t_seq t) (t_batch t ++ ws) (t_rsp t) (t_sseq t) (t_srows t) (t_req t)
      (t_plans t) (t_rows t) (t_dml t) (t_prepared t).

Definition add_rows (d : Z) (t : txn) : txn :=
  mkT (t_seq t) (t_batch t) (t_rsp t) (t_sseq t) (t_srows t) (t_req t)
      (t_plans t) (t_rows t + d) (t_dml t) (t_prepared t).

Definition set_prepared (t : txn) : txn :=
  mkT (t_seq t) (t_batch t) (t_rsp t) (t_sseq t) (t_srows t) (t_req t)
      (t_plans t) (t_rows t) (t_dml t) true.

(** Membership in a std::set<int>. *)
Definition mem (n : nat) (l : list nat) : bool := existsb (Nat.eqb n) l.

(** [Region::dml_2pc] for the BEGIN command, always sequence number 1: creates
    the transaction and caches the command (region.cpp 1961-2300 with
    [op_type == OP_BEGIN]; TransactionPool::begin_txn, transaction_pool.cpp
    59-103). *)
Definition begin_txn : txn := push_cmd 1 PBegin (set_seq_id 1 fresh).

(** [Region::dml_2pc] for INSERT, UPDATE and DELETE (region.cpp 1961-2300): roll
    back the statements of the list, skip the statement if it is itself on the
    list, otherwise set a save point and run it.  [fail = Some junk]: it failed
    after writing [junk].  The flag is the success of the call. *)
Definition dml_2pc (bad : list nat) (fail : option (list W)) (s : stmt) (t : txn) : txn * bool :=
  let t1 := rollback_list bad t in
  if mem (s_seq s) bad then (set_seq_id (s_seq s) t1, true)
  else
    let t2 := set_save_point (set_seq_id (s_seq s) t1) in
    match fail with
    | Some junk => (add_writes junk t2, false)
    | None =>
        let t3 := push_cmd (s_seq s) (PStmt s) (set_seq_id (s_seq s) (add_writes (s_w s) t2)) in
        (add_rows (s_rows s) t3, true)
    end.

(** [Region::dml_2pc] for PREPARE: no save point (region.cpp 2039-2041), the
    command is cached (2231-2252).  [ok] is the outcome of rocksdb's Prepare. *)
Definition prepare_2pc (bad : list nat) (ok : bool) (n : nat) (t : txn) : txn * bool :=
  let t1 := rollback_list bad t in
  if mem n bad then (set_seq_id n t1, true)
  else
    let t2 := set_seq_id n t1 in
    if ok then (push_cmd n PPrepare (set_seq_id n (set_prepared t2)), true) else (t2, false).

(** [Region::select] for SELECT FOR UPDATE inside a transaction (region.cpp
    3026-3048, 3143-3156): the current number is not looked up in the list. *)
Definition for_update (bad : list nat) (ok : bool) (n : nat) (t : txn) : txn * bool :=
  let t1 := rollback_list bad t in
  let t2 := set_save_point (set_seq_id n t1) in
  if ok then (push_cmd n (PStmt (mkS n [] 0)) t2, true) else (t2, false).

(** A request for one region of a transaction (fetcher_store.cpp 190-265):
    [q_bad] is the list [need_rollback_seq], [q_cached] the cached statements
    that travel with it (BEGIN always does), [q_stmt] the statement itself. *)
Record request := mkQ {
  q_kind : kind;
  q_seq : nat;
  q_bad : list nat;
  q_cached : list stmt;
  q_w : list W;
  q_rows : Z
}.

Definition q_stmt (q : request) : stmt := mkS (q_seq q) (q_w q) (q_rows q).

(** What the environment decides while a request is served: which statements
    fail (with the writes they leave behind), and whether the raft group accepts
    the resulting log entry. *)
Record env := mkE { e_fail : nat -> option (list W); e_raft : bool }.

(** [Region::execute_cached_cmd] (region.cpp 522-597) after BEGIN: run the cached
    statements with a number above [last]. *)
Fixpoint run_cached (last : nat) (bad : list nat) (e : env) (cs : list stmt) (t : txn) : txn * bool :=
  match cs with
  | [] => (t, true)
  | c :: r => if s_seq c <=? last then run_cached last bad e r t
              else let (t', ok) := dml_2pc bad (e_fail e (s_seq c)) c t in
                   if ok then run_cached last bad e r t' else (t', false)
  end.

(** The entry that the leader proposes to its raft group: the request itself, or
    an OP_PARTIAL_ROLLBACK with the list (region.cpp 750-797). *)
Inductive entry := ERun (q : request) | EPartial (bad : list nat).

Definition is_none {A} (o : option A) : bool := match o with None => true | _ => false end.

(** The execution of the current command on the leader (region.cpp 966-1218),
    after the cached ones. *)
Definition run_current (e : env) (q : request) (t : txn) : txn * bool :=
  match q_kind q with
  | KSelect =>
      if is_none (e_fail e (q_seq q)) then (select_status (q_seq q) (rollback_list (q_bad q) t), true)
      else (rollback_list (q_bad q) t, false)
  | KForUpdate => for_update (q_bad q) (is_none (e_fail e (q_seq q))) (q_seq q) t
  | KDml => dml_2pc (q_bad q) (e_fail e (q_seq q)) (q_stmt q) t
  | KPrepare => (t, true)
  end.

(** PREPARE runs when its log entry is applied, also on the leader
    (apply_txn_request, region.cpp 4424-4426). *)
Definition apply_prepare (e : env) (q : request) (t : txn) : txn :=
  fst (prepare_2pc (q_bad q) (is_none (e_fail e (q_seq q))) (q_seq q) t).

(** [FLAGS_apply_partial_rollback] is on: before anything else the leader
    replicates a partial rollback if the last number it saw is on the list
    (region.cpp 915-936). *)
Definition partial_first (q : request) (t : txn) : bool := mem (t_seq t) (q_bad q).

(** [Region::exec_in_txn_query] on the leader (region.cpp 799-1218) together
    with the application of the entry it proposes.  [None] as the result means
    the transaction is still unknown.  The entries are those the group accepted.
    A repeated request ([last_seq >= seq_id]) is answered from memory, except
    that SELECT and SELECT FOR UPDATE run again (region.cpp 858-885). *)
Definition serve (e : env) (q : request) (o : option txn) : option txn * list entry :=
  let last := match o with None => 0 | Some t => t_seq t end in
  let again := match q_kind q with KSelect | KForUpdate => true | _ => false end in
  match o with
  | Some t =>
      if (q_seq q <=? t_seq t) && negb again then (o, [])
      else
        let p := partial_first q t in
        let t0 := if p then clear_req (rollback_list (q_bad q) t) else t in
        let l0 := if p then [EPartial (q_bad q)] else [] in
        let (t1, ok1) := if last <? q_seq q - 1 then run_cached last (q_bad q) e (q_cached q) t0
                         else (t0, true) in
        if ok1 then
          let (t2, ok2) := run_current e q t1 in
          if ok2 then
            match q_kind q with
            | KSelect => (Some t2, l0)
            | _ => if e_raft e
                   then let t3 := match q_kind q with KPrepare => apply_prepare e q t2 | _ => t2 end in
                        (Some (clear_req t3), l0 ++ [ERun q])
                   else (Some (rollback_current_request t2), l0)
            end
          else (Some (rollback_current_request t2), l0)
        else (Some (rollback_current_request t1), l0)
  | None =>
      let (t1, ok1) := run_cached last (q_bad q) e (q_cached q) begin_txn in
      if ok1 then
        let (t2, ok2) := run_current e q t1 in
        if ok2 then
          match q_kind q with
          | KSelect => (Some t2, [])
          | _ => if e_raft e
                 then let t3 := match q_kind q with KPrepare => apply_prepare e q t2 | _ => t2 end in
                      (Some (clear_req t3), [ERun q])
                 else (Some (rollback_current_request t2), [])
          end
        else (Some (rollback_current_request t2), [])
      else (Some (rollback_current_request t1), [])
  end.

(** The leader over a sequence of requests, with the log it produces. *)
Fixpoint serve_all (rs : list (env * request)) (o : option txn) : option txn * list entry :=
  match rs with
  | [] => (o, [])
  | (e, q) :: r => let (o1, l1) := serve e q o in
                   let (o2, l2) := serve_all r o1 in (o2, l1 ++ l2)
  end.

(** On a follower no statement that succeeded on the leader fails. *)
Definition calm : env := mkE (fun _ => None) true.

(** [Region::apply_txn_request] on a follower (region.cpp 4306-4470), statement
    mode: the follower runs the statements itself. *)
Definition apply_stmt (en : entry) (o : option txn) : option txn :=
  match en, o with
  | EPartial bad, Some t => Some (clear_req (rollback_list bad t))
  | EPartial _, None => None
  | ERun q, _ =>
      let last := match o with None => 0 | Some t => t_seq t end in
      let t0 := match o with None => begin_txn | Some t => t end in
      let t1 := if last <? q_seq q - 1 then fst (run_cached last (q_bad q) calm (q_cached q) t0) else t0 in
      if last <? q_seq q
      then Some (clear_req (match q_kind q with
                            | KPrepare => apply_prepare calm q t1
                            | _ => fst (run_current calm q t1)
                            end))
      else Some (clear_req t1)
  end.

Definition apply_stmts (l : list entry) (o : option txn) : option txn :=
  fold_left (fun o en => apply_stmt en o) l o.

(** [Region::apply_kv_in_txn] on a follower (region.cpp 3928-4120), key-value
    mode ([_storage_compute_separate]): the entry of a data statement carries
    the writes, and [total] is [txn->num_increase_rows] of the leader after the
    statement (region.cpp 1155-1163). *)
Definition apply_kv (q : request) (total : Z) (o : option txn) : option txn :=
  let last := match o with None => 0 | Some t => t_seq t end in
  let t0 := match o with None => begin_txn | Some t => t end in
  if q_seq q <=? last then Some t0
  else
    let t1 := rollback_list (q_bad q) t0 in
    if mem (q_seq q) (q_bad q) then Some (set_seq_id (q_seq q) t1)
    else
      let t2 := add_writes (q_w q) (set_save_point (set_seq_id (q_seq q) t1)) in
      let t3 := match q_w q with [] => t2 | _ => clear_req t2 end in
      Some (push_cmd (q_seq q) (PStmt (q_stmt q)) (add_rows total t3)).

(** A peer that joins, or a region made by a split, is sent the cached plans one
    by one with the list of rolled back numbers
    ([replay_applied_txn_for_recovery], region.cpp 7061-7196; [get_cache_plan_infos],
    transaction.h 381-411). *)
Definition replay (bad : list nat) (ps : list (nat * plan)) : option txn :=
  fold_left (fun o e =>
    match snd e with
    | PBegin => o
    | PPrepare => apply_stmt (ERun (mkQ KPrepare (fst e) bad [] [] 0)) o
    | PStmt s => apply_stmt (ERun (mkQ KDml (fst e) bad [] (s_w s) (s_rows s))) o
    end) ps None.

End Save.
Arguments stmt : clear implicits.
Arguments txn : clear implicits.
Arguments plan : clear implicits.
Arguments request : clear implicits.
Arguments env : clear implicits.
Arguments entry : clear implicits.
