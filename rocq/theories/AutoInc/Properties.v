(* C11-C13: auto-increment ids. *)
From Verif.AutoInc Require Import Model Spec Proofs ProofsInsert.
Local Open Scope Z_scope.

(* ---------- C11 ---------- *)
Theorem C11_disjoint_increasing : forall l i j t c1 s1 c2 s2 a1 b1 a2 b2,
  Forall op_ok l -> no_overflow l -> (i < j)%nat ->
  nth_error l i = Some (OGen t c1 s1) -> nth_error l j = Some (OGen t c2 s2) ->
  answer l i = Some (RIds a1 b1) -> answer l j = Some (RIds a2 b2) ->
  between i j l (fun o => ~ restarts t o) ->
  b1 = a1 + c1 /\ b2 = a2 + c2 /\ b1 <= a2.
Proof. exact ids_disjoint. Qed.
Print Assumptions C11_disjoint_increasing.
(* A replica that applies the log, takes snapshots and restarts from them, in any
   order, gives entry i the answer the whole log determines ... *)
Theorem C11_replicas_agree : forall log ss r i o,
  replica_run log init_replica ss = Some r -> r_applied r = i -> nth_error log i = Some o ->
  Some (snd (apply_op (r_map r) o)) = answer log i.
Proof. exact replica_answers. Qed.
Print Assumptions C11_replicas_agree.
(* ... and its last snapshot can always be loaded. *)
Theorem C11_snapshot_loads : forall log ss r, replica_run log init_replica ss = Some r ->
  exists r', replica_step log r RRestart = Some r'.
Proof. exact replica_never_stuck. Qed.
Print Assumptions C11_snapshot_loads.

Definition log1 : list op :=
  [OAdd 7 1 false; OGen 7 5 None; OAdd 8 100 false; OUpdate 7 (Some 50) None false; OGen 8 3 (Some 4);
   OUpdate 7 None (Some 9) false; OGen 7 2 (Some 70); OUpdate 7 (Some 10) None false; OGen 7 4 (Some 3)].
Example C11_nonvacuous :
  Forall op_ok log1 /\ no_overflow log1 /\ answer log1 1 = Some (RIds 1 6) /\ answer log1 6 = Some (RIds 71 73) /\
  answer log1 7 = Some RErr /\ answer log1 8 = Some (RIds 73 77) /\
  between 1 6 log1 (fun o => ~ restarts 7 o) /\
  option_map r_applied (replica_run log1 init_replica [RApply; RApply; RSnap; RApply; RRestart; RApply; RApply; RApply; RSnap; RRestart; RApply]) = Some 6%nat.
Proof.
  split; [repeat (constructor; [cbn [op_ok]; unfold opt_ok, is_u64; lia|]); constructor|].
  do 5 (split; [vm_compute; reflexivity|]). split; [|vm_compute; reflexivity].
  - intros k o [L1 L2] E. do 6 (destruct k as [|k]; [try lia; cbn in E; injection E as <-; cbn; auto|]). lia.
Qed.
(* The exclusions are needed: wrapping, a forced update and drop-and-add each give ids out twice. *)
Theorem C11_restart_refuted : exists l1 l2 l3 : list op, Forall op_ok l1 /\ Forall op_ok l2 /\ Forall op_ok l3 /\
  (answer l1 1 = Some (RIds 5 7) /\ answer l1 3 = Some (RIds 5 7)) /\
  (answer l2 1 = Some (RIds 5 7) /\ answer l2 4 = Some (RIds 5 7)) /\
  (answer l3 1 = Some (RIds 5 7) /\ answer l3 3 = Some (RIds 5 7)).
Proof.
  exists [OAdd 1 5 false; OGen 1 2 None; OUpdate 1 (Some 4) None true; OGen 1 2 None].
  exists [OAdd 1 5 false; OGen 1 2 None; ODrop 1; OAdd 1 5 false; OGen 1 2 None].
  exists [OAdd 1 5 false; OGen 1 2 None; OUpdate 1 None (Some (2 ^ 64 - 2)) false; OGen 1 2 None].
  split; [repeat (constructor; [cbn [op_ok]; unfold opt_ok, is_u64; lia|]); constructor|].
  split; [repeat (constructor; [cbn [op_ok]; unfold opt_ok, is_u64; lia|]); constructor|].
  split; [repeat (constructor; [cbn [op_ok]; unfold opt_ok, is_u64; lia|]); constructor|].
  repeat split; vm_compute; reflexivity.
Qed.
Print Assumptions C11_restart_refuted.

(* ---------- C12 ---------- *)
Theorem C12_above_recorded : forall l i j t o r m c s a b,
  Forall op_ok l -> no_overflow l -> (i < j)%nat ->
  nth_error l i = Some o -> answer l i = Some r -> records_id o r t m ->
  nth_error l j = Some (OGen t c s) -> answer l j = Some (RIds a b) ->
  between i j l (fun o => ~ restarts t o) ->
  m < a.
Proof. exact above_explicit. Qed.
Print Assumptions C12_above_recorded.
Example C12_nonvacuous : records_id (OUpdate 7 (Some 50) None false) ROk 7 50 /\ answer log1 3 = Some ROk /\
  records_id (OGen 7 2 (Some 70)) (RIds 71 73) 7 70 /\ answer log1 6 = Some (RIds 71 73).
Proof. repeat split; try (vm_compute; reflexivity); [right; eauto|left]. exists 2. split; auto. discriminate. Qed.

(* Statement level: ids generated by a later INSERT are above every id generated for, and
   (unless the column is marked noskip) given explicitly in, an earlier INSERT. *)
Theorem C12_later_inserts_larger : forall es i j t ns1 rows1 rows1' last1 ns2 rows2 rows2' last2,
  Forall event_ok es -> ids_fit es -> (i < j)%nat ->
  nth_error es i = Some (EvIns t ns1 rows1) -> outcome es i (InsOk rows1' last1) ->
  nth_error es j = Some (EvIns t ns2 rows2) -> outcome es j (InsOk rows2' last2) ->
  (forall k e, (i < k < j)%nat -> nth_error es k = Some e -> ~ restarts_ev t e) ->
  forall k2 x2, generated rows2 rows2' k2 x2 ->
  (forall k1 x1, generated rows1 rows1' k1 x1 -> x1 < x2) /\
  (ns1 = false -> forall e, explicit rows1 e -> e < x2).
Proof. exact insert_history. Qed.
Print Assumptions C12_later_inserts_larger.
(* An explicit id above 2^63-1 in a BIGINT UNSIGNED column is read as a negative number and
   not recorded: a later generated id is smaller. *)
Theorem C12_unsigned_refuted : exists es rows' last x,
  nth_error es 1 = Some (EvIns 1 false [Some (2 ^ 63 + 5)]) /\ nth_error es 2 = Some (EvIns 1 false [None]) /\
  outcome es 1 (InsOk [Some (2 ^ 63 + 5)] None) /\ outcome es 2 (InsOk rows' last) /\
  generated [None] rows' 0 x /\ x < 2 ^ 63 + 5.
Proof.
  exists [EvOp (OAdd 1 1 false); EvIns 1 false [Some (2 ^ 63 + 5)]; EvIns 1 false [None]], [Some 1], (Some 1), 1.
  repeat split; try (vm_compute; reflexivity). exists None. repeat split. left. reflexivity.
Qed.
Print Assumptions C12_unsigned_refuted.

(* ---------- C13 ---------- *)
Theorem C13_insert_ids : forall es i t ns rows rows' last,
  Forall event_ok es -> ids_fit es ->
  nth_error es i = Some (EvIns t ns rows) -> outcome es i (InsOk rows' last) ->
  length rows' = length rows /\
  (forall k v, nth_error rows k = Some v -> ~ wants_id v -> nth_error rows' k = Some v) /\
  (forall k v, nth_error rows k = Some v -> wants_id v -> exists x, nth_error rows' k = Some (Some x) /\ 0 < x) /\
  (forall k1 k2 x1 x2, (k1 < k2)%nat -> generated rows rows' k1 x1 -> generated rows rows' k2 x2 -> x1 < x2) /\
  (ns = false -> forall k x e, generated rows rows' k x -> explicit rows e -> e < x) /\
  (forall k v, nth_error rows k = Some v -> wants_id v ->
     exists k0 x, last = Some x /\ generated rows rows' k0 x /\ (k0 <= k)%nat).
Proof. exact insert_rows. Qed.
Print Assumptions C13_insert_ids.
Definition es1 : list event :=
  [EvOp (OAdd 1 1 false); EvIns 1 false [None; Some 20; Some 0; Some (-3)]; EvOp (OUpdate 1 None (Some 5) false);
   EvIns 1 false [Some 21]; EvIns 1 true [None; Some 90; None]].
Example C13_nonvacuous : Forall event_ok es1 /\ ids_fit es1 /\
  outcome es1 1 (InsOk [Some 21; Some 20; Some 22; Some (-3)] (Some 21)) /\
  outcome es1 4 (InsOk [Some 28; Some 90; Some 29] (Some 28)) /\
  generated [None; Some 90; None] [Some 28; Some 90; Some 29] 2 29.
Proof.
  split.
  - unfold es1. repeat (constructor; [cbn [event_ok op_ok]; unfold opt_ok, is_u64; try lia; repeat (constructor; [cbn [row_range]; lia|]); constructor|]). constructor.
  - split; [vm_compute; reflexivity|]. split; [vm_compute; reflexivity|]. split; [vm_compute; reflexivity|]. exists None. repeat split. left. reflexivity.
Qed.
(* Degraded mode (ids drawn at random when the id service is down) breaks freshness: for every
   counter state there is a draw that repeats an explicit id of the same statement. *)
Theorem C13_degraded_refuted : forall t m e, 0 < e -> e < 2 ^ 63 ->
  update_auto_inc t false (Some e) m [Some e; None] = (m, InsOk [Some e; Some e] (Some e)).
Proof.
  intros t m e H1 H2. unfold update_auto_inc. cbn [scan needs_id].
  rewrite !as_int64_id by lia. destruct (Z.eqb_spec e 0); [lia|]. destruct (Z.ltb_spec 0 e); [|lia].
  cbn [scan]. cbn [Z.add Z.eqb andb fill needs_id]. rewrite as_int64_id by lia. destruct (Z.eqb_spec e 0); [lia|]. reflexivity.
Qed.
Print Assumptions C13_degraded_refuted.
