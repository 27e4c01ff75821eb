(* C14-C17: the raft log storage. *)
From Verif.Raft Require Import Model Spec ProofsTerm ProofsTop.
Local Open Scope Z_scope.

(* ---------- C14 ---------- *)
(* Every legal history of every region of a store, including stops, reopenings and
   compactions: the store never fails, and each open region answers first index, last
   index, terms and entries like the abstract log. *)
Theorem C14_log_answers : forall big c binlog ls, codec_ok c -> legal_run c binlog init_spec ls ->
  exists s, run big c binlog init_sys ls = Some s /\
  forall r, p_open (spec_run c binlog init_spec ls) r = true ->
    exists m l, s_mem s r = Some m /\ p_log (spec_run c binlog init_spec ls) r = Some l /\
      answers_like c binlog big s r m l (p_clean (spec_run c binlog init_spec ls) r).
Proof. exact log_answers. Qed.
Print Assumptions C14_log_answers.
Theorem C14_return_codes : forall big c binlog ls s r m o,
  codec_ok c -> legal_run c binlog init_spec ls -> run big c binlog init_sys ls = Some s ->
  s_mem s r = Some m -> legal_on c binlog (spec_run c binlog init_spec ls) r o ->
  snd (do_rop big c (binlog r) r m o) = match o with RAppend es => Z.of_nat (length es) | _ => 0 end.
Proof. exact op_returns. Qed.
Print Assumptions C14_return_codes.
(* An append that does not continue the log is refused and writes nothing. *)
Theorem C14_gap_refused : forall big c b r m e es, e_index e <> m_last m + 1 ->
  append_entries big c b r m (e :: es) = (m, [], -1).
Proof. exact append_gap. Qed.
Print Assumptions C14_gap_refused.

(* a codec, and a history with two regions, one of them with binlog entries *)
Definition xc : codec := mk_codec
  (fun p o => Z.of_nat (length p) :: p ++ o)
  (fun v => match v with n :: rest => Some (firstn (Z.to_nat n) rest, skipn (Z.to_nat n) rest) | [] => None end)
  (fun d => match d with [] => None | 9 :: ts :: _ => Some (true, Some ts) | 8 :: _ => Some (true, None) | _ => Some (false, None) end)
  (fun d => match d with 9 :: ts :: _ => [9; ts] | _ => [9; 0] end).
Lemma xc_ok : codec_ok xc.
Proof.
  split.
  - intros p o. cbn. rewrite Nat2Z.id. rewrite firstn_app, Nat.sub_diag, firstn_all, skipn_app, Nat.sub_diag, skipn_all. cbn. rewrite app_nil_r. reflexivity.
  - intros d ots H. cbn in *.
    destruct d as [|z d]; [discriminate|]. destruct z as [|z|z]; try discriminate.
    do 4 (try (destruct z as [z|z|]; try discriminate)); try (destruct d as [|ts d]; [discriminate|]); inversion H; subst; reflexivity.
Qed.
Definition xb (r : Z) : bool := r =? 5.
Definition data i t d := mk_entry i t (PData d).
Definition xls : list label :=
  [Open 3; Open 5;
   Do 3 (RAppend [mk_entry 1 1 PNoop; mk_entry 2 1 (PConf [11; 12] None); data 3 1 [7; 7]]);
   Do 5 (RAppend [mk_entry 1 2 PNoop; data 2 2 [9; 100; 42; 43]; data 3 2 [8; 1]; data 4 3 [1; 2]]);
   Do 3 (RTruncSuffix 2); Do 3 (RAppend [data 3 4 [5]; mk_entry 4 4 (PConf [11] (Some [12]))]);
   CrashDuring 3 (RTruncPrefix 3 []) 1; Open 5; Do 5 (RTruncPrefix 2 []);
   Compact [data_key false 5 1; data_key false 5 2; data_key false 3 3] (fun _ => 100); Open 3;
   CrashDuring 5 (RReset 9 []) 2; Open 5; Open 3].
Example C14_nonvacuous : codec_ok xc /\ legal_run xc xb init_spec xls /\
  (exists s, run false xc xb init_sys xls = Some s /\
     option_map m_first (s_mem s 3) = Some 3 /\ option_map m_last (s_mem s 3) = Some 4 /\
     get_entry false xc false (s_disk s) 3 4 = Some (mk_entry 4 4 (PConf [11] (Some [12]))) /\
     get_entry false xc false (s_disk s) 3 5 = None /\ option_map m_first (s_mem s 5) = Some 9) /\
  (exists s, run true xc xb init_sys (firstn 10 xls) = Some s /\
     get_entry true xc true (s_disk s) 5 2 = Some (data 2 2 [9; 100; 42; 43]) /\
     get_entry true xc true (s_disk s) 5 3 = Some (data 3 2 [8; 1]) /\ get_entry true xc true (s_disk s) 5 1 = None).
Proof.
  split; [exact xc_ok|]. split.
  - cbn [legal_run xls legal]. unfold legal_on, i64.
    repeat match goal with |- _ /\ _ => split end; try exact I; try lia; try reflexivity;
      try (cbn; repeat (constructor; try lia); fail);
      try (cbn; repeat split; try lia; repeat constructor; cbn; try lia; try discriminate; intros; try discriminate;
           repeat match goal with H : Some _ = Some _ |- _ => inversion H; subst; clear H end; unfold i64; try lia; fail);
      try (cbn; intros ts d d' H1 H2; intuition congruence).
    cbn. split; [repeat split; lia|]. split; [repeat split; lia|]. split; [|lia].
    repeat (apply Forall_cons; [split; [cbn; lia|cbn; first [exact I|intros _; split; [discriminate|intros ts d' E; unfold i64; inversion E; lia]]]|]).
    apply Forall_nil.
  - split; eexists; (split; [vm_compute; reflexivity|]); vm_compute; repeat split.
Qed.

(* ---------- C15 ---------- *)
(* A stop after any number n of the storage writes of an operation, then reopening
   region r': the region of the operation has its old or its new log (a reset may also
   have only dropped its prefix), every other region its log; the configurations found
   are those of the log. *)
Theorem C15_crash_atomic : forall big c binlog ls r o n r', codec_ok c ->
  let A := spec_run c binlog init_spec ls in
  legal_run c binlog init_spec ls -> legal_on c binlog A r o -> i64 r' ->
  exists s m l', run big c binlog init_sys (ls ++ [CrashDuring r o n; Open r']) = Some s /\ s_mem s r' = Some m /\
    answers_like c binlog big s r' m l' (if r' =? r then false else p_clean A r') /\
    m_confs m = filter is_conf (l_ents l') /\
    if r' =? r then l' = log_of A r \/ l' = spec_op (log_of A r) o \/
                    exists k dr, o = RReset k dr /\ l' = spec_op (log_of A r) (RTruncPrefix k dr)
    else l' = log_of A r'.
Proof. exact crash_reopen. Qed.
Print Assumptions C15_crash_atomic.
Example C15_nonvacuous : exists ls r o, legal_run xc xb init_spec ls /\ legal_on xc xb (spec_run xc xb init_spec ls) r o /\
  l_last (log_of (spec_run xc xb init_spec ls) r) = 4 /\ l_last (spec_op (log_of (spec_run xc xb init_spec ls) r) o) = 2.
Proof.
  exists [Open 3; Do 3 (RAppend [data 1 1 [1]; data 2 1 [2]; data 3 1 [3]; data 4 2 [4]])], 3, (RTruncSuffix 2).
  split; [|split; [|split; reflexivity]].
  - cbn [legal_run legal]. unfold legal_on. split; [unfold i64; lia|]. split; [|exact I]. split; [reflexivity|]. split; [|cbn; tauto].
    cbn. repeat split; try lia; repeat constructor; cbn; try lia; discriminate.
  - split; [reflexivity|]. split; [cbn; lia|cbn; tauto].
Qed.
(* Exact limits of crash safety in the code.
   1. truncate_suffix ignores a failed storage write and returns 0: after a restart the
      removed entries are back; after another append the region cannot be opened. *)
Theorem C15_failed_write_refuted : exists d m, (* a reachable open region *)
  (exists s, run false xc xb init_sys [Open 3; Do 3 (RAppend [data 1 1 [1]; data 2 1 [2]; data 3 1 [3]])] = Some s /\
             s_disk s = d /\ s_mem s 3 = Some m) /\
  let '(m1, _, rc) := truncate_suffix false 3 m 1 in   (* its writes do not reach the disk *)
  rc = 0 /\ m_last m1 = 1 /\
  option_map (fun x => m_last (snd x)) (init_storage false xc 3 d) = Some 3 /\
  let '(_, ws, rc2) := append_entries false xc false 3 m1 [data 2 5 [9]] in
  rc2 = 1 /\ init_storage false xc 3 (do_writes d ws) = None.
Proof. eexists _, _. split; [eexists; vm_compute; repeat split; reflexivity|]. vm_compute. repeat split. Qed.
Print Assumptions C15_failed_write_refuted.
(* 2. After a stop inside truncate_prefix, entries below the first index can still be read. *)
Theorem C15_below_first_refuted : exists s m,
  run false xc xb init_sys [Open 3; Do 3 (RAppend [data 1 1 [1]; data 2 1 [2]; data 3 1 [3]]); CrashDuring 3 (RTruncPrefix 3 []) 1; Open 3] = Some s /\
  s_mem s 3 = Some m /\ m_first m = 3 /\ get_entry false xc false (s_disk s) 3 2 = Some (data 2 1 [2]).
Proof. eexists _, _. do 3 (split; [vm_compute; reflexivity|]). vm_compute. reflexivity. Qed.
Print Assumptions C15_below_first_refuted.
(* 3. A reset to an index below the first one: an append at that index is acknowledged
      but lost by a restart. *)
Theorem C15_reset_back_refuted : exists s m s2 m2,
  run false xc xb init_sys [Open 3; Do 3 (RAppend [data 1 1 [1]; data 2 1 [2]; data 3 1 [3]]); Do 3 (RTruncPrefix 3 []); Do 3 (RReset 2 [])] = Some s /\
  s_mem s 3 = Some m /\ snd (append_entries false xc false 3 m [data 2 1 [8]]) = 1 /\
  run false xc xb s [Do 3 (RAppend [data 2 1 [8]]); Crash; Open 3] = Some s2 /\
  s_mem s2 3 = Some m2 /\ m_first m2 = 3 /\ m_last m2 = 2.
Proof. eexists _, _, _, _. do 6 (split; [vm_compute; reflexivity|]). vm_compute. reflexivity. Qed.
Print Assumptions C15_reset_back_refuted.

(* ---------- C16 ---------- *)
Theorem C16_terms : forall os f q x,
  maps_legal (mk_tref f 0 []) os -> map_run [] (mk_tref f 0 []) os = Some (q, x) ->
  forall j t, nth_error (r_terms x) j = Some t -> tm_get_term q (r_first x + Z.of_nat j) = t.
Proof. exact map_run_terms. Qed.
Print Assumptions C16_terms.
Theorem C16_never_refuses : forall os f, maps_legal (mk_tref f 0 []) os -> exists r, map_run [] (mk_tref f 0 []) os = Some r.
Proof. exact map_run_total. Qed.
Print Assumptions C16_never_refuses.
Definition mops : list mapop := map MAppend [1;1;2;3;3;4;5;6;7;8;9;10;11;12;13;14;15;16;17;17] ++ [MTruncPrefix 13; MTruncSuffix 28; MAppend 19].
Example C16_nonvacuous : maps_legal (mk_tref 10 0 []) mops /\
  exists q x, map_run [] (mk_tref 10 0 []) mops = Some (q, x) /\ length q = 16%nat /\ r_first x = 13 /\ length (r_terms x) = 17%nat.
Proof. split; [vm_compute; repeat split; discriminate|]. eexists _, _. do 3 (split; [vm_compute; reflexivity|]). vm_compute. reflexivity. Qed.

(* ---------- C17 ---------- *)
(* compaction steps are part of the histories of C14 and C15; and directly: *)
Theorem C17_filter_safe : forall big c binlog ls s sp k v,
  codec_ok c -> legal_run c binlog init_spec ls -> run big c binlog init_sys ls = Some s ->
  In (k, v) (db (s_disk s)) -> filter_removes big (s_fmap s) sp k = true ->
  exists r i l, k = data_key big r i /\ i64 r /\ i64 i /\
    p_log (spec_run c binlog init_spec ls) r = Some l /\ i < l_first l /\ i < sp r.
Proof. exact filter_safe. Qed.
Print Assumptions C17_filter_safe.
Example C17_nonvacuous : exists s, 
  run false xc xb init_sys [Open 3; Do 3 (RAppend [data 1 1 [1]; data 2 1 [2]; data 3 1 [3]]); CrashDuring 3 (RTruncPrefix 3 []) 1; Open 3] = Some s /\
  map (fun kv => filter_removes false (s_fmap s) (fun _ => 2) (fst kv)) (db (s_disk s)) = [false; true; false; false].
Proof. eexists. split; [vm_compute; reflexivity|]. vm_compute. reflexivity. Qed.
