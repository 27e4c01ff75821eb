(** * One distributed transaction: the regions that hold it and the database
      server that runs it

    Sources modelled (all under /repo):
    - src/store/region.cpp 684-748   (a secondary asks the primary: exec_txn_query_primary_region)
    - src/store/region.cpp 799-1218  (a request of a transaction: exec_in_txn_query)
    - src/store/region.cpp 4306-4470 (its raft entry: apply_txn_request)
    - src/exec/transaction_node.cpp 38-125 (PREPARE / COMMIT / ROLLBACK on a store)
    - src/engine/transaction_pool.cpp 59-420, 511-701 (pool, read-only commit, time-outs)
    - src/store/meta_writer.cpp 239-258 (rollback tag)
    - src/exec/fetcher_store.cpp 185-265, 1793-1987 (who is sent what, in which order)
    - include/exec/commit_manager_node.h 37-80, rollback_manager_node.h 34-50
    - include/exec/single_txn_manager_node.h (a statement outside BEGIN ... COMMIT)

    Granularity and simplifications
    - A region is modelled as one object: its raft log (C14-C17, C34) is taken as
      atomic.  What a leader change loses is a separate action ([ALead]).
    - The network is the set of all requests ever sent.  A request may be delivered
      any number of times, in any order, at any later moment, or never, so time-outs
      and retries of the database server need no action of their own.
    - A statement is its sequence number.  What it writes is C35's subject.
    - A plain SELECT is not modelled; a SELECT FOR UPDATE is a statement.
    - Transactions whose only region is the primary use one-phase commit
      (optimize_1pc): one raft entry prepares and commits.  Not modelled.
    - Global binlog and the commit time stamps are not modelled. *)

From Coq Require Import List Arith Lia Bool.
Import ListNotations.

(** ** Requests and replies *)

(** pb::OpType restricted to the requests of a transaction (is_dml_op_type,
    is_2pc_op_type).  BEGIN is carried by every statement and PREPARE
    (fetcher_store.cpp 231-262: the cached BEGIN is always sent along, except with COMMIT). *)
Inductive rop := RDml | RPrep | RCom | RRoll.

(** pb::StoreReq with its TransactionInfo (fetcher_store.cpp 196-265): operation,
    seq_id, need_rollback_seq, and the sequence numbers of cached statements. *)
Record req := mkReq { q_op : rop; q_seq : nat; q_bad : list nat; q_cached : list nat }.

(** What the database server makes of a store's answer (fetcher_store.cpp, OnRPCDone::
    handle_response): success, an error that leaves the transaction alive (E_WARNING, a
    duplicate key), TXN_IS_ROLLBACK, any other error. *)
Inductive reply := AOk | AWarn | AErr | ARolled.

Definition rop_eqb (a b : rop) : bool :=
  match a, b with RDml, RDml | RPrep, RPrep | RCom, RCom | RRoll, RRoll => true | _, _ => false end.

(** ** A region *)

(** class Transaction (include/engine/transaction.h), as far as it decides commit:
    _is_prepared, has_dml_executed(), seq_id(), the statements whose writes stand, whether
    a raft entry of the transaction was applied by PREPARE, and err_code of the last
    request. *)
Record pool := mkPool {
  pl_prep : bool;  pl_wrote : bool;  pl_seq : nat;  pl_run : list nat;
  pl_logged : bool;  pl_err : bool }.

(** begin_txn (transaction_pool.cpp 59-103) for the BEGIN plan, whose sequence number is 1. *)
Definition new_pool : pool := mkPool false false 1 [] false false.

(** What the region knows about the transaction: its entry in _txn_map, the rollback tag in
    the meta column family, its mark in _finished_txn_map; and, for the specification only,
    how it ended here: committed (true) or dropped (false), and with which statements. *)
Record region := mkReg {
  g_pool : option pool;  g_tag : bool;  g_fin : bool;  g_hist : list (bool * list nat) }.

Definition reg0 : region := mkReg None false false [].

Definition set_pool (o : option pool) (g : region) : region :=
  mkReg o (g_tag g) (g_fin g) (g_hist g).

(** remove_txn (transaction_pool.cpp 105-120) after a commit or rollback, with the tag
    written by write_meta_after_commit (meta_writer.cpp 239-258) if [tag]. *)
Definition end_txn (committed tag fin : bool) (l : list nat) (g : region) : region :=
  mkReg None (g_tag g || tag) (g_fin g || fin) (g_hist g ++ [(committed, l)]).

(** rollback_mark_finished (transaction_pool.h). *)
Definition mark_fin (g : region) : region := mkReg (g_pool g) (g_tag g) true (g_hist g).

(** What the environment decides about one execution: it succeeds; it fails before or
    while executing (no leader, version, raft, lock, storage), the given-up statements
    being dropped or not, a new pool entry being left behind or not; it fails with a duplicate
    key; a PREPARE fails inside its raft entry; or a PREPARE fails after the statements it
    carries were executed (region.cpp 1020-1046 before 1090-1190). *)
Inductive fate := FOk | FErr (dropped kept : bool) | FWarn | FPrep | FLate.

Definition drop (bad l : list nat) : list nat :=
  filter (fun k => negb (existsb (Nat.eqb k) bad)) l.

(** region.cpp 906-920 and C35: the statements the server gave up are undone first. *)
Definition undo (bad : list nat) (pl : pool) : pool :=
  mkPool (pl_prep pl) (pl_wrote pl) (pl_seq pl) (drop bad (pl_run pl)) (pl_logged pl) (pl_err pl).

(** execute_cached_cmd (region.cpp 522-596): cached statements after the last one executed. *)
Definition run_cached (cached : list nat) (pl : pool) : pool :=
  match filter (fun k => pl_seq pl <? k) cached with
  | [] => pl
  | ks => mkPool (pl_prep pl) true (last ks 0) (pl_run pl ++ ks) (pl_logged pl) false
  end.

(** An INSERT, DELETE, UPDATE or SELECT FOR UPDATE that succeeds (region.cpp 1088-1190, dml_2pc). *)
Definition run_dml (n : nat) (pl : pool) : pool :=
  mkPool (pl_prep pl) true n (pl_run pl ++ [n]) (pl_logged pl) false.

(** TXN_PREPARE (transaction_node.cpp 50-70) inside its raft entry. *)
Definition run_prepare (n : nat) (pl : pool) : pool :=
  mkPool true (pl_wrote pl) n (pl_run pl) true false.

(** ... and failing there: dml_2pc still records the sequence number and the error. *)
Definition fail_prepare (n : nat) (pl : pool) : pool :=
  mkPool (pl_prep pl) (pl_wrote pl) n (pl_run pl) true true.

(** read_only_txn_process, OP_PREPARE (transaction_pool.cpp 262-275): the sequence number does
    not move and nothing is replicated. *)
Definition ro_prepare (pl : pool) : pool :=
  mkPool true (pl_wrote pl) (pl_seq pl) (pl_run pl) (pl_logged pl) (pl_err pl).

(** COMMIT of a transaction in the pool.  Without writes: read_only_txn_process (278-282).  With
    writes: TXN_COMMIT_STORE (transaction_node.cpp 82-107): commit() fails unless prepared,
    and remove_txn follows in either case. *)
Definition commit_pool (pl : pool) (g : region) : region * reply :=
  if negb (pl_wrote pl) then (end_txn true false true (pl_run pl) g, AOk)
  else if pl_prep pl then (end_txn true false true (pl_run pl) g, AOk)
  else (end_txn false false true (pl_run pl) g, AErr).

(** ROLLBACK of a transaction in the pool.  Without writes: read_only_txn_process (275-278), no
    tag is written, also when the store itself sent the request (region.cpp 1141-1152 does not
    look at from_store).  With writes: TXN_ROLLBACK_STORE, and the tag (need_write_rollback,
    transaction.h 550-555). *)
Definition rollback_pool (pl : pool) (g : region) : region * reply :=
  if negb (pl_wrote pl) then (end_txn false false true (pl_run pl) g, AOk)
  else (end_txn false true true (pl_run pl) g, AOk).

(** The request is executed on transaction [pl] of the region (new or found in the pool);
    region.cpp 895-1190 and 4306-4470. *)
Definition run_req (fresh : bool) (q : req) (f : fate) (pl : pool) (g : region) : region * reply :=
  match q_op q, f with
  | RDml, FWarn => (set_pool (Some (undo (q_bad q) pl)) g, AWarn)
  | RDml, FOk =>
      (set_pool (Some (run_dml (q_seq q) (undo (q_bad q) pl))) g, AOk)
  | RPrep, FOk =>
      let pl1 := run_cached (q_cached q) (undo (q_bad q) pl) in
      if negb (pl_wrote pl1) then (set_pool (Some (ro_prepare pl1)) g, AOk)
      else (set_pool (Some (run_prepare (q_seq q) pl1)) g, AOk)
  | RPrep, FPrep =>
      let pl1 := run_cached (q_cached q) (undo (q_bad q) pl) in
      if negb (pl_wrote pl1) then (set_pool (Some pl1) g, AErr)
      else (set_pool (Some (fail_prepare (q_seq q) pl1)) g, AErr)
  | RPrep, FLate => (set_pool (Some (run_cached (q_cached q) (undo (q_bad q) pl))) g, AErr)
  | RCom, FOk => commit_pool pl g
  | RRoll, FOk => rollback_pool pl g
  | (RDml | RPrep), FErr d k =>
      (set_pool (if fresh && negb k then None
                 else Some (if d then undo (q_bad q) pl else pl)) g, AErr)
  | _, _ => (g, AErr)
  end.

(** exec_in_txn_query (region.cpp 799-1218) for a request of the database server.
    [prim]: this region is the primary the request names. *)
Definition handle (prim : bool) (q : req) (f : fate) (g : region) : region * reply :=
  match g_pool g with
  | None =>
      if g_tag g then (g, ARolled)
      else if g_fin g then (g, AOk)
      else match q_op q with
           | RRoll => (if prim then mark_fin g else g, AOk)
           | RCom => (g, AOk)
           | _ => run_req true q f new_pool g
           end
  | Some pl =>
      if q_seq q <=? pl_seq pl then (g, if pl_err pl then AErr else AOk)
      else run_req false q f pl g
  end.

(** A COMMIT or ROLLBACK the store sends to itself (txn_commit_through_raft,
    transaction_pool.cpp 284-415; its sequence number is the largest int). *)
Definition self_end (commit : bool) (g : region) : region :=
  match g_pool g with
  | None => g
  | Some pl => fst (if commit then commit_pool pl g else rollback_pool pl g)
  end.

(** ** The whole system *)

(** Where the database server is with the transaction: between statements, in a statement,
    preparing, PREPARE answered by all and COMMIT going to the primary, primary committed and the
    user told so, giving up (ROLLBACK to everybody), interrupted during COMMIT (ROLLBACK to the
    primary only: fetcher_store.cpp 1930-1945, replies are discarded when cancelled). *)
Inductive phase := PRun | PStmt | PPrep | PCom | PDone | PAb | PCancel.

Definition phase_eqb (a b : phase) : bool :=
  match a, b with
  | PRun, PRun | PStmt, PStmt | PPrep, PPrep | PCom, PCom | PDone, PDone | PAb, PAb
  | PCancel, PCancel => true
  | _, _ => false
  end.

(** The primary's answers to a secondary (region.cpp 703-747). *)
Inductive answer := SCommitted | SRolled | SBegined.

(** NetworkSocket (client_conn): phase, seq_id of the last statement or PREPARE,
    need_rollback_seq, statements that succeeded, region_infos at PREPARE, whether the statement was
    cached to travel with PREPARE (autocommit), whether COMMIT was decided. *)
Record client := mkCli {
  c_ph : phase;  c_n : nat;  c_bad : list nat;  c_good : list nat;  c_parts : list nat;
  c_auto : bool;  c_dec : bool }.

(** The regions, everything sent, every reply given, the questions asked by secondaries
    (with the state they reported), the answers to them, and the server. *)
Record st := mkSt {
  s_reg : nat -> region;
  s_sent : list (nat * req);
  s_rep : list (nat * rop * nat * reply);
  s_qry : list (nat * bool);
  s_ans : list (nat * answer);
  s_cli : client }.

Definition init : st :=
  mkSt (fun _ => reg0) [] [] [] [] (mkCli PRun 1 [] [] [] false false).

Definition upd (r : nat) (g : region) (f : nat -> region) : nat -> region :=
  fun x => if x =? r then g else f x.

Definition with_reg (r : nat) (g : region) (s : st) : st :=
  mkSt (upd r g (s_reg s)) (s_sent s) (s_rep s) (s_qry s) (s_ans s) (s_cli s).
Definition add_rep (e : nat * rop * nat * reply) (s : st) : st :=
  mkSt (s_reg s) (s_sent s) (e :: s_rep s) (s_qry s) (s_ans s) (s_cli s).
Definition add_sent (e : nat * req) (s : st) : st :=
  mkSt (s_reg s) (e :: s_sent s) (s_rep s) (s_qry s) (s_ans s) (s_cli s).
Definition with_cli (c : client) (s : st) : st :=
  mkSt (s_reg s) (s_sent s) (s_rep s) (s_qry s) (s_ans s) c.

Definition memb (k : nat) (l : list nat) : bool := existsb (Nat.eqb k) l.

(** Some reply of region [r] to the request numbered [n] of kind [o] satisfies [t]. *)
Definition replied (t : reply -> bool) (r : nat) (o : rop) (n : nat) (s : st) : bool :=
  existsb (fun e => match e with (r', o', n', a) =>
             (r' =? r) && rop_eqb o' o && (n' =? n) && t a end) (s_rep s).
Definition is_ok (a : reply) : bool := match a with AOk => true | _ => false end.
Definition is_rolled (a : reply) : bool := match a with ARolled => true | _ => false end.

(** The primary has answered a statement or PREPARE without ending the transaction; only then
    is anybody else contacted (fetcher_store.cpp 1846-1872, 1893-1915). *)
Definition primed (p : nat) (s : st) : bool :=
  existsb (fun e => match e with (r, o, _, a) =>
             (r =? p) && match o with RDml | RPrep => true | _ => false end &&
             match a with AOk | AWarn => true | _ => false end end) (s_rep s).

(** The request of the current phase. *)
Definition cur_req (c : client) : req :=
  match c_ph c with
  | PStmt => mkReq RDml (c_n c) (c_bad c) []
  | PPrep => mkReq RPrep (c_n c) (c_bad c) (if c_auto c then [2] else [])
  | PCom | PDone => mkReq RCom (S (c_n c)) (c_bad c) []
  | _ => mkReq RRoll (S (c_n c)) (c_bad c) []
  end.

(** Whom it may be sent to (fetcher_store.cpp 1834-1987). *)
Definition may_send (p r : nat) (s : st) : bool :=
  let c := s_cli s in
  match c_ph c with
  | PRun => false
  | PStmt => (r =? p) || primed p s
  | PPrep => memb r (c_parts c) && ((r =? p) || primed p s)
  | PCom => r =? p
  | PDone => memb r (c_parts c)
  | PAb => true
  | PCancel => r =? p
  end.

(** What can happen. *)
Inductive action :=
| ADml                       (* the user issues a statement; it gets the next number *)
| ASend (r : nat)            (* the request of this phase is sent (again) to a region *)
| AGood                      (* every region it was sent to executed the statement *)
| AGiveUp                    (* the statement failed; its number goes to need_rollback_seq *)
| APrep (auto : bool) (parts : list nat)   (* COMMIT, or a statement outside a transaction *)
| ADecide                    (* every region answered PREPARE *)
| ATold                      (* the primary answered COMMIT; the user is told *)
| AAbort                     (* ROLLBACK, an error, or the primary says it rolled back *)
| ACancel                    (* the connection is closed while COMMIT is under way *)
| ADeliver (i : nat) (f : fate)            (* the i-th request sent is executed (again) *)
| ATimeout                   (* the primary rolls the transaction back by itself *)
| AAsk (r : nat)             (* a secondary asks the primary, reporting its own state *)
| AAnswer (i : nat)          (* the i-th question is answered *)
| AObey (i : nat)            (* the i-th answer is acted upon *)
| ALead (r : nat)            (* leader change: a transaction that raft never saw is lost *)
| AForce (r : nat)           (* the transaction is removed by force *)
| AForget (r : nat).         (* _finished_txn_map is cleared (every ten minutes) *)

(** One step; [None] where the action is not possible. *)
Definition step (p : nat) (a : action) (s : st) : option st :=
  let c := s_cli s in
  match a with
  | ADml =>
      match c_ph c with
      | PRun => Some (with_cli (mkCli PStmt (S (c_n c)) (c_bad c) (c_good c) (c_parts c)
                                  (c_auto c) (c_dec c)) s)
      | _ => None
      end
  | ASend r =>
      if may_send p r s then Some (add_sent (r, cur_req c) s) else None
  | AGood =>
      if phase_eqb (c_ph c) PStmt &&
         existsb (fun e => q_seq (snd e) =? c_n c) (s_sent s) &&
         forallb (fun e => negb (q_seq (snd e) =? c_n c) ||
                           replied is_ok (fst e) RDml (c_n c) s) (s_sent s)
      then Some (with_cli (mkCli PRun (c_n c) (c_bad c) (c_good c ++ [c_n c]) (c_parts c)
                             (c_auto c) (c_dec c)) s)
      else None
  | AGiveUp =>
      match c_ph c with
      | PStmt => Some (with_cli (mkCli PRun (c_n c) (c_bad c ++ [c_n c]) (c_good c) (c_parts c)
                                   (c_auto c) (c_dec c)) s)
      | _ => None
      end
  | APrep auto parts =>
      if phase_eqb (c_ph c) PRun && memb p parts &&
         forallb (fun e => memb (fst e) parts) (s_sent s) &&
         (negb auto || ((c_n c =? 1) && match s_sent s with [] => true | _ => false end))
      then Some (with_cli (mkCli PPrep (if auto then 3 else S (c_n c)) (c_bad c) (c_good c) parts
                             auto (c_dec c)) s)
      else None
  | ADecide =>
      if phase_eqb (c_ph c) PPrep &&
         forallb (fun r => replied is_ok r RPrep (c_n c) s) (c_parts c)
      then Some (with_cli (mkCli PCom (c_n c) (c_bad c) (c_good c) (c_parts c) (c_auto c) true) s)
      else None
  | ATold =>
      if phase_eqb (c_ph c) PCom && replied is_ok p RCom (S (c_n c)) s
      then Some (with_cli (mkCli PDone (c_n c) (c_bad c) (c_good c) (c_parts c) (c_auto c)
                             (c_dec c)) s)
      else None
  | AAbort =>
      if phase_eqb (c_ph c) PRun || phase_eqb (c_ph c) PStmt || phase_eqb (c_ph c) PPrep ||
         (phase_eqb (c_ph c) PCom && replied is_rolled p RCom (S (c_n c)) s)
      then Some (with_cli (mkCli PAb (c_n c) (c_bad c) (c_good c) (c_parts c) (c_auto c)
                             (c_dec c)) s)
      else None
  | ACancel =>
      match c_ph c with
      | PCom => Some (with_cli (mkCli PCancel (c_n c) (c_bad c) (c_good c) (c_parts c) (c_auto c)
                                  (c_dec c)) s)
      | _ => None
      end
  | ADeliver i f =>
      match nth_error (s_sent s) i with
      | None => None
      | Some (r, q) =>
          let (g, a) := handle (r =? p) q f (s_reg s r) in
          Some (add_rep (r, q_op q, q_seq q, a) (with_reg r g s))
      end
  | ATimeout => Some (with_reg p (self_end false (s_reg s p)) s)
  | AAsk r =>
      if r =? p then None
      else match g_pool (s_reg s r) with
           | None => None
           | Some pl =>
               Some (mkSt (s_reg s) (s_sent s) (s_rep s) ((r, pl_prep pl) :: s_qry s) (s_ans s) c)
           end
  | AAnswer i =>
      match nth_error (s_qry s) i with
      | None => None
      | Some (r, prepared) =>
          match g_pool (s_reg s p) with
          | Some _ => None
          | None =>
              Some (mkSt (s_reg s) (s_sent s) (s_rep s) (s_qry s)
                      ((r, if g_tag (s_reg s p) then SRolled
                           else if prepared then SCommitted else SBegined) :: s_ans s) c)
          end
      end
  | AObey i =>
      match nth_error (s_ans s) i with
      | None => None
      | Some (r, a) =>
          Some (with_reg r (self_end (match a with SCommitted => true | _ => false end)
                              (s_reg s r)) s)
      end
  | ALead r =>
      match g_pool (s_reg s r) with
      | Some pl =>
          match pl_run pl, pl_logged pl with
          | [], false => Some (with_reg r (set_pool None (s_reg s r)) s)
          | _, _ => None
          end
      | None => None
      end
  | AForce r =>
      match g_pool (s_reg s r) with
      | Some pl => Some (with_reg r (end_txn false false false (pl_run pl) (s_reg s r)) s)
      | None => None
      end
  | AForget r =>
      let g := s_reg s r in
      Some (with_reg r (mkReg (g_pool g) (g_tag g) false (g_hist g)) s)
  end.

(** A history. *)
Fixpoint run (p : nat) (l : list action) (s : st) : option st :=
  match l with
  | [] => Some s
  | a :: l' => match step p a s with Some s' => run p l' s' | None => None end
  end.
