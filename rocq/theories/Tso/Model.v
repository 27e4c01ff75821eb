(* Model of the timestamp oracle: src/meta_server/tso_state_machine.cpp,
   src/common/tso_proxy.cpp, src/store/store.cpp:2415-2452 (Store::get_tso).

   One replica object is modelled function by function; the cluster is a
   transition system whose steps are the critical sections of the code, so an
   execution is any list of labels.  Raft is abstracted to one list of committed
   entries; what is used of it is written at the guards of [step].
   Physical times are unbounded Z (milliseconds since 2020; int64 in the code). *)
From Coq Require Export ZArith List Bool Lia.
Export ListNotations.
Local Open Scope Z_scope.

(* include/common/common.h:1627-1634 *)
Definition guard_ms : Z := 1.
Definition save_interval_ms : Z := 3000.
Definition logical_bits : Z := 18.
Definition max_logical : Z := 2 ^ logical_bits.

(* tso_state_machine.h:40-43 TsoObj *)
Record tso_obj := mk_obj { cur_p : Z; cur_l : Z; last_save : Z }.
(* tso_state_machine.cpp:56-58 *)
Definition init_obj : tso_obj := mk_obj 0 0 0.

(* ---- gen_tso: tso_state_machine.cpp:82-136 ---- *)

(* lines 83-95: the checks before the loop (None = error response) *)
Definition gen_check (healthy : bool) (count : Z) : bool := negb (count =? 0) && healthy.

(* lines 99-118: one attempt under _tso_mutex.  GUb: signed overflow of
   logical + count (undefined in C++).  The caller retries up to 50 times. *)
Inductive gres := GOk (p l : Z) (o : tso_obj) | GRetry | GUb.
Definition gen_try (o : tso_obj) (count : Z) : gres :=
  if negb (cur_p o =? 0) then
    let new_logical := cur_l o + count in
    if (2 ^ 63 - 1 <? new_logical) || (new_logical <? - 2 ^ 63) then GUb
    else if new_logical <? max_logical
    then GOk (cur_p o) (cur_l o) (mk_obj (cur_p o) new_logical (last_save o))
    else GRetry
  else GRetry.

(* ---- log entries ---- *)
Inductive req :=
| RUpdate (p l save : Z)                  (* OP_UPDATE_TSO *)
| RReset (p l save : Z) (force : bool).   (* OP_RESET_TSO with both fields present *)

(* tso_state_machine.cpp:275-303 update_tso: new object, and whether SUCCESS *)
Definition update_tso (o : tso_obj) (p l save : Z) : tso_obj * bool :=
  if (save <? last_save o) || (p <? cur_p o) then (o, false)
  else (mk_obj p l save, true).

(* tso_state_machine.cpp:235-273 reset_tso; also sets _is_healty on success *)
Definition reset_tso (o : tso_obj) (p l save : Z) (force : bool) : tso_obj * bool :=
  if ((save <? last_save o) || (p <? cur_p o)) && negb force then (o, false)
  else (mk_obj p l save, true).

(* tso_state_machine.cpp:338-373 update_timestamp, the part after the leader
   check: the OP_UPDATE_TSO it sends (None = no update needed) *)
Definition update_timestamp (o : tso_obj) (now : Z) : option req :=
  let delta := now - cur_p o in
  let next := if guard_ms <? delta then Some now
              else if max_logical / 2 <? cur_l o then Some (cur_p o + guard_ms)
              else None in
  match next with
  | None => None
  | Some next =>
      let save := if last_save o - next <=? guard_ms then next + save_interval_ms
                  else last_save o in
      Some (RUpdate next 0 save)
  end.

(* tso_state_machine.cpp:375-390 on_leader_start: the update it sends *)
Definition leader_start_req (o : tso_obj) (now : Z) : req :=
  let cur := if now <? last_save o + guard_ms then last_save o + guard_ms else now in
  RUpdate cur 0 (cur + save_interval_ms).

(* tso_state_machine.cpp:192-233 on_apply of one entry *)
Definition apply_req (o : tso_obj) (healthy : bool) (r : req) : tso_obj * bool * bool :=
  match r with
  | RUpdate p l s => let (o', ok) := update_tso o p l s in (o', healthy, ok)
  | RReset p l s f => let (o', ok) := reset_tso o p l s f in (o', healthy || ok, ok)
  end.

(* ---- cluster ---- *)

Record entry := mk_entry { e_who : Z; e_req : req }.

(* The bthread started by on_leader_start (lines 387-400).  At most one exists per
   node in the model. *)
Inductive lsthread :=
| LSidle
| LSpend (r : req)      (* computed, sync_timestamp not yet committed *)
| LSwait (i : nat)      (* committed at log position i, not yet applied here *)
| LSret (ok : bool).    (* sync_timestamp returned; about to set _is_leader (line 395) *)

(* the timer thread inside update_timestamp *)
Inductive tick := TKnone | TKpend (r : req) | TKwait (i : nat).

Record node := mk_node {
  obj : tso_obj;
  healthy : bool;      (* _is_healty *)
  flag : bool;         (* _is_leader *)
  lead : bool;         (* between the raft callbacks on_leader_start and on_leader_stop *)
  applied : nat;       (* entries applied *)
  lst : lsthread;
  ls_late : bool;      (* on_leader_stop ran while the start thread was still alive *)
  tk : tick;
  tk_late : bool;      (* on_leader_stop ran while an update was still in flight *)
  inflight : list Z;   (* counts of gen_tso calls past their checks *)
  snap : nat * Z }.    (* last snapshot: position, last_save_physical *)

(* a successful OP_GEN_TSO response *)
Record out := mk_out { o_node : Z; o_p : Z; o_l : Z; o_count : Z;
                       o_idx : nat;      (* ghost: entries applied at the server *)
                       o_fresh : bool }. (* ghost: the server is the current raft leader *)

Record cluster := mk_cluster {
  log : list entry;
  nodes : Z -> node;
  rleader : option Z;   (* the node whose proposals raft commits at present *)
  outs : list out }.    (* newest first *)

Definition init_node : node :=
  mk_node init_obj true false false 0 LSidle false TKnone false [] (0%nat, 0).
Definition init_cluster : cluster := mk_cluster [] (fun _ => init_node) None [].

Definition set_node (c : cluster) (n : Z) (x : node) : cluster :=
  mk_cluster (log c) (fun m => if m =? n then x else nodes c m) (rleader c) (outs c).

Inductive label :=
| Elect (n now : Z)          (* raft elects n; on_leader_start runs *)
| Lose                       (* the current leader loses its majority *)
| Stop (n : Z)               (* on_leader_stop on n *)
| Apply (n : Z)              (* n applies its next entry *)
| LsCommit (n : Z) | LsFail (n : Z) | LsStore (n : Z) | LsStoreLate (n : Z)
| Tick (n now : Z) | TickCommit (n : Z) | TickCommitLate (n : Z) | TickDrop (n : Z)
| GenReq (n count : Z) | GenTry (n : Z) (i : nat) | GenTryLate (n : Z) (i : nat) | GenDrop (n : Z) (i : nat)
| ResetReq (n p l save : Z) (force : bool)
| Snap (n : Z) | Restart (n : Z) | Install (n m : Z).

Definition is_rleader (c : cluster) (n : Z) : bool :=
  match rleader c with Some m => m =? n | None => false end.

Fixpoint remove_nth (i : nat) (l : list Z) : list Z :=
  match i, l with
  | _, [] => []
  | O, _ :: l' => l'
  | S j, x :: l' => x :: remove_nth j l'
  end.

(* one attempt of an in-flight gen_tso (lines 98-136) *)
Definition do_gen (c : cluster) (n : Z) (i : nat) : option cluster :=
  let x := nodes c n in
  match nth_error (inflight x) i with
  | None => None
  | Some cnt =>
      match gen_try (obj x) cnt with
      | GOk p l o' =>
          let x' := mk_node o' (healthy x) (flag x) (lead x) (applied x) (lst x) (ls_late x)
                      (tk x) (tk_late x) (remove_nth i (inflight x)) (snap x) in
          let c' := set_node c n x' in
          Some (mk_cluster (log c') (nodes c') (rleader c')
                  (mk_out n p l cnt (applied x) (is_rleader c n) :: outs c))
      | GRetry => Some c
      | GUb => None
      end
  end.

(* None: the label is not enabled. *)
Definition step (c : cluster) (a : label) : option cluster :=
  match a with
  | Elect n now =>
      (* braft runs on_leader_start once every entry of earlier terms is applied,
         and after the on_leader_stop of n's previous leadership *)
      let x := nodes c n in
      if negb (lead x) && (applied x =? length (log c))%nat
         && match lst x with LSidle => true | _ => false end
      then
        let x' := mk_node (obj x) (healthy x) (flag x) true (applied x)
                    (LSpend (leader_start_req (obj x) now)) false
                    (tk x) (tk_late x) (inflight x) (snap x) in
        let c' := set_node c n x' in
        Some (mk_cluster (log c') (nodes c') (Some n) (outs c'))
      else None
  | Lose => Some (mk_cluster (log c) (nodes c) None (outs c))
  | Stop n =>
      (* lines 403-407, common_state_machine.cpp:211-219.  A pending sync_timestamp
         fails (closures are completed with an error). *)
      let x := nodes c n in
      if lead x && negb (is_rleader c n) then
        Some (set_node c n (mk_node (obj x) (healthy x) false false (applied x)
                (match lst x with LSpend _ | LSwait _ => LSret false | s => s end)
                (match lst x with LSidle => ls_late x | _ => true end)
                (match tk x with TKwait _ => TKnone | t => t end)
                (match tk x with TKpend _ => true | _ => tk_late x end)
                (inflight x) (snap x)))
      else None
  | Apply n =>
      let x := nodes c n in
      match nth_error (log c) (applied x) with
      | None => None
      | Some e =>
          (* entries of a later leader arrive only after on_leader_stop *)
          if negb (lead x) || (e_who e =? n) then
            match apply_req (obj x) (healthy x) (e_req e) with
            | (o', h', ok) =>
                Some (set_node c n (mk_node o' h' (flag x) (lead x) (S (applied x))
                  (match lst x with LSwait i => if (i =? applied x)%nat then LSret ok else lst x | s => s end)
                  (ls_late x)
                  (match tk x with TKwait i => if (i =? applied x)%nat then TKnone else tk x | t => t end)
                  (tk_late x) (inflight x) (snap x)))
            end
          else None
      end
  | LsCommit n =>
      let x := nodes c n in
      match lst x with
      | LSpend r =>
          if is_rleader c n then
            let x' := mk_node (obj x) (healthy x) (flag x) (lead x) (applied x)
                        (LSwait (length (log c))) (ls_late x) (tk x) (tk_late x) (inflight x) (snap x) in
            let c' := set_node c n x' in
            Some (mk_cluster (log c ++ [mk_entry n r]) (nodes c') (rleader c') (outs c'))
          else None
      | _ => None
      end
  | LsFail n =>
      let x := nodes c n in
      match lst x with
      | LSpend _ | LSwait _ =>
          if is_rleader c n then None
          else Some (set_node c n (mk_node (obj x) (healthy x) (flag x) (lead x) (applied x)
                 (LSret false) (ls_late x) (tk x) (tk_late x) (inflight x) (snap x)))
      | _ => None
      end
  | LsStore n | LsStoreLate n =>
      (* lines 391-396 *)
      let x := nodes c n in
      match lst x with
      | LSret ok =>
          if Bool.eqb (ls_late x) (match a with LsStoreLate _ => true | _ => false end) then
            Some (set_node c n (mk_node (obj x) (healthy x && ok) true (lead x) (applied x)
                 LSidle false (tk x) (tk_late x) (inflight x) (snap x)))
          else None
      | _ => None
      end
  | Tick n now =>
      let x := nodes c n in
      match tk x with
      | TKnone =>
          if flag x then
            match update_timestamp (obj x) now with
            | None => Some c
            | Some r => Some (set_node c n (mk_node (obj x) (healthy x) (flag x) (lead x) (applied x)
                 (lst x) (ls_late x) (TKpend r) false (inflight x) (snap x)))
            end
          else Some c
      | _ => None
      end
  | TickCommit n | TickCommitLate n =>
      let x := nodes c n in
      match tk x with
      | TKpend r =>
          if is_rleader c n
             && Bool.eqb (tk_late x) (match a with TickCommitLate _ => true | _ => false end) then
            let x' := mk_node (obj x) (healthy x) (flag x) (lead x) (applied x)
                        (lst x) (ls_late x) (TKwait (length (log c))) false (inflight x) (snap x) in
            let c' := set_node c n x' in
            Some (mk_cluster (log c ++ [mk_entry n r]) (nodes c') (rleader c') (outs c'))
          else None
      | _ => None
      end
  | TickDrop n =>
      let x := nodes c n in
      if is_rleader c n then None
      else Some (set_node c n (mk_node (obj x) (healthy x) (flag x) (lead x) (applied x)
                 (lst x) (ls_late x) TKnone false (inflight x) (snap x)))
  | GenReq n count =>
      (* lines 161-174 and 83-95 *)
      let x := nodes c n in
      if flag x && gen_check (healthy x) count
      then Some (set_node c n (mk_node (obj x) (healthy x) (flag x) (lead x) (applied x)
                 (lst x) (ls_late x) (tk x) (tk_late x) (inflight x ++ [count]) (snap x)))
      else Some c
  | GenTry n i => if flag (nodes c n) && healthy (nodes c n) then do_gen c n i else None
  (* the loop does not look at _is_leader again: an attempt may run on a node that
     is no longer (or not healthily) leader *)
  | GenTryLate n i => if flag (nodes c n) && healthy (nodes c n) then None else do_gen c n i
  | GenDrop n i =>
      let x := nodes c n in
      Some (set_node c n (mk_node (obj x) (healthy x) (flag x) (lead x) (applied x)
                 (lst x) (ls_late x) (tk x) (tk_late x) (remove_nth i (inflight x)) (snap x)))
  | ResetReq n p l save force =>
      if is_rleader c n && flag (nodes c n)
      then Some (mk_cluster (log c ++ [mk_entry n (RReset p l save force)]) (nodes c) (rleader c) (outs c))
      else None
  | Snap n =>
      (* on_snapshot_save, lines 409-417: only last_save_physical is saved *)
      let x := nodes c n in
      Some (set_node c n (mk_node (obj x) (healthy x) (flag x) (lead x) (applied x)
                 (lst x) (ls_late x) (tk x) (tk_late x) (inflight x) (applied x, last_save (obj x))))
  | Restart n =>
      (* process restart: init (lines 56-58), then load_tso (lines 456-475) *)
      let x := nodes c n in
      let c' := set_node c n (mk_node (mk_obj 0 0 (snd (snap x))) true false false (fst (snap x))
                 LSidle false TKnone false [] (snap x)) in
      Some (mk_cluster (log c') (nodes c') (if is_rleader c n then None else rleader c) (outs c'))
  | Install n m =>
      (* a follower loads the snapshot of another node: only last_save_physical changes *)
      let x := nodes c n in
      let s := snap (nodes c m) in
      if negb (lead x) && (applied x <? fst s)%nat
         && match lst x with LSidle => true | _ => false end
      then Some (set_node c n (mk_node (mk_obj (cur_p (obj x)) (cur_l (obj x)) (snd s))
                 (healthy x) (flag x) (lead x) (fst s)
                 (lst x) (ls_late x) (tk x) (tk_late x) (inflight x) s))
      else None
  end.

Fixpoint run (c : cluster) (ls : list label) : option cluster :=
  match ls with
  | [] => Some c
  | a :: ls' => match step c a with Some c' => run c' ls' | None => None end
  end.

(* ---- client side ---- *)

(* tso_proxy.cpp:54-69 send_requests: the count of the combined request *)
Fixpoint batch_count (cs : list Z) : Z :=
  match cs with [] => 0 | c :: cs' => c + batch_count cs' end.
(* tso_proxy.cpp:71-99 process_response (success case): the start timestamp each
   client receives, in order *)
Fixpoint process_response (p l : Z) (cs : list Z) : list (Z * Z * Z) :=
  match cs with
  | [] => []
  | c :: cs' => (p, l, c) :: process_response p (l + c) cs'
  end.

(* the 64-bit timestamp clients build (binlog_context.cpp:112, store.cpp:2451) *)
Definition pack (p l : Z) : Z := Z.shiftl p logical_bits + l.

(* store.cpp:2415-2452 Store::get_tso.  State: tso_physical, tso_logical,
   tso_count; [N] = FLAGS_gen_tso_count; [expired] = the age test failed;
   [resp] = what the service would return for count N (None = error). *)
Record store_cache := mk_sc { sc_p : Z; sc_l : Z; sc_count : Z }.
Definition store_get_tso (N : Z) (s : store_cache) (expired : bool) (resp : option (Z * Z))
  : option Z * store_cache * bool (* service asked *) :=
  if negb (sc_p s =? 0) && negb (sc_l s =? 0) && (0 <? sc_count s) && negb expired
  then (Some (Z.shiftl (sc_p s) logical_bits + sc_l s + N - sc_count s),
        mk_sc (sc_p s) (sc_l s) (sc_count s - 1), false)
  else match resp with
       | None => (None, s, true)
       | Some (p, l) => (Some (Z.shiftl p logical_bits + l + N - N), mk_sc p l (N - 1), true)
       end.
(* a sequence of calls: each call has its expiry test and the reply it would get *)
Fixpoint store_calls (N : Z) (s : store_cache) (cs : list (bool * option (Z * Z)))
  : list Z * list (Z * Z) (* values returned, ranges fetched *) :=
  match cs with
  | [] => ([], [])
  | (ex, resp) :: cs' =>
      match store_get_tso N s ex resp with
      | (v, s', asked) =>
          let (vs, rs) := store_calls N s' cs' in
          ((match v with Some z => z :: vs | None => vs end),
           (if asked then match resp with Some r => r :: rs | None => rs end else rs))
      end
  end.
