(* C88: a row with a TTL is there until it expires and gone afterwards.  Spec.v says what that
   means, Claims.v how the model's answers are read. *)
From Verif Require Import Common.Bytes Key.Model Split.Model Ttl.Spec Ttl.Model Ttl.Claims Ttl.Proofs Ttl.Statements Ttl.Top.
Local Open Scope Z_scope.

(* Table created with TTL: after every history of writes, with any values and any positive expiry
   times, every point read and every scan at every time finds exactly what has not expired. *)
Theorem C88_created_with_ttl : forall big max ops, max < 2 ^ 31 -> Forall created_fine ops ->
  reads_as big max (fold_left (apply big) ops (empty_region true)) (snd (fold_left step ops (true, []))).
Proof.
  intros big max ops Hm Ho. apply repr_reads; [exact Hm|].
  apply run_created; [exact Ho|apply empty_repr|reflexivity|reflexivity].
Qed.
Print Assumptions C88_created_with_ttl.

(* Table that gets its TTL at some point of its life: the same, and what was there before expires
   at the time announced when TTL was turned on.  Missing, because false (see below): tables with
   80 or more columns, expiry times after November 2120, primary keys under a unique index that
   start like a time. *)
Theorem C88_turned_on_partial : forall big max ops, max < 2 ^ 31 -> history_fine max false ops ->
  reads_as big max (fold_left (apply big) ops (empty_region false)) (snd (fold_left step ops (false, []))).
Proof.
  intros big max ops Hm Ho. apply repr_reads; [exact Hm|].
  apply run_repr; [apply empty_repr|exact Ho].
Qed.
Print Assumptions C88_turned_on_partial.

(* Statements on a table created with TTL: UPDATE, INSERT, INSERT IGNORE, REPLACE and ON DUPLICATE
   KEY UPDATE see the rows alive when the transaction began, give what they write the expiry asked
   for, and keep the expiry of changed rows if asked to.  Missing, because false (see below): that
   last request with ON DUPLICATE KEY UPDATE; times that overflow. *)
Theorem C88_statements_partial : forall big max ops begin now hint duration s,
  max < 2 ^ 31 -> Forall created_fine ops ->
  0 < begin -> begin <= now -> 0 < duration -> i64_time (fresh now hint duration) ->
  statement_fine max 0 hint s ->
  let g := fold_left (apply big) ops (empty_region true) in
  let t := snd (fold_left step ops (true, [])) in
  match run_statement begin now hint duration s t with
  | Some t' => exists g' ts, exec_statement big max begin now hint duration s g = Run g' ts /\ reads_as big max g' t'
  | None => exec_statement big max begin now hint duration s g = Fails
  end.
Proof.
  intros big max ops begin now hint duration s Hm Ho Hb Hn Hd Hf Hs g t.
  pose proof (run_created big max ops Ho (empty_region true) (true, []) (empty_repr big max true) eq_refl eq_refl) as R.
  assert (B : rg_base g = 0) by (apply (created_base big ops (empty_region true)); reflexivity).
  assert (R' : repr big max g (true, t)).
  { unfold g, t. destruct (fold_left step ops (true, [])) as [u t0] eqn:E. cbn [snd]. replace u with true in R; [exact R|].
    clear -E. assert (G : forall ops s, fst s = true -> fst (fold_left step ops s) = true).
    { clear. induction ops as [|o ops IH]; intros [u t] H; [exact H|]. cbn [fold_left fst] in *. apply IH. subst u.
      destruct o; reflexivity. }
    specialize (G ops (true, []) eq_refl). rewrite E in G. symmetry. exact G. }
  apply statement_runs; try assumption; rewrite B; auto.
Qed.
Print Assumptions C88_statements_partial.

(* The same for a table that has got its TTL later *)
Theorem C88_statements_turned_on_partial : forall big max ops begin now hint duration s g t,
  max < 2 ^ 31 -> history_fine max false ops ->
  Forall (fun o => match o with Turn_on b => plausible b | _ => True end) ops ->
  0 < begin -> begin <= now -> 0 < duration -> plausible (fresh now hint duration) ->
  g = fold_left (apply big) ops (empty_region false) ->
  fold_left step ops (false, []) = (true, t) ->
  statement_fine max (rg_base g) hint s ->
  match run_statement begin now hint duration s t with
  | Some t' => exists g' ts, exec_statement big max begin now hint duration s g = Run g' ts /\ reads_as big max g' t'
  | None => exec_statement big max begin now hint duration s g = Fails
  end.
Proof.
  intros big max ops begin now hint duration s g t Hm Ho Hp Hb Hn Hd Hf -> Et Hs.
  pose proof (run_repr big max ops (empty_region false) (false, []) (empty_repr big max false) Ho) as R. rewrite Et in R.
  apply statement_runs; try assumption.
  - apply base_kept; [exact Hp|left; reflexivity].
  - split; [apply plausible_i64; exact Hf|right; exact Hf].
Qed.
Print Assumptions C88_statements_turned_on_partial.

(* ---- where the claim is false ---- *)

Definition k1 : ekey := (Primary, [1]).
Definition k2 : ekey := (Primary, [2]).

(* INSERT of two rows ON DUPLICATE KEY UPDATE with the hint to keep the expiry: the first is there
   already and expires in 5 seconds, the second is new and gets that expiry instead of the table's
   hour. *)
Theorem C88_keep_refuted : exists ops begin now duration s g' ts t' later,
  Forall created_fine ops /\
  exec_statement false 3 begin now (-1) duration s (fold_left (apply false) ops (empty_region true)) = Run g' ts /\
  run_statement begin now (-1) duration s (snd (fold_left step ops (true, []))) = Some t' /\
  look t' later k2 = There [7] (Some (now + duration * 1000000)) /\
  get_update false 3 g' later k2 = Expired.
Proof.
  exists [Write k1 [5] 1800000005000000], 1800000000000000, 1800000000000000, 3600,
    (Insert [(k1, [6]); (k2, [7])] (Dup_update (fun v => v))).
  eexists. eexists. eexists. exists 1800000006000000.
  split; [repeat constructor|]. split; [reflexivity|]. split; [reflexivity|]. split; reflexivity.
Qed.
Print Assumptions C88_keep_refuted.

(* Table that got its TTL later, row written with a TTL of 100 years: it reads back with the
   expiry in front of its value and with the expiry of the old rows. *)
Theorem C88_far_expiry_refuted : exists base now v g,
  is_row 3 v /\ plausible base /\
  g = fold_left (apply false) [Turn_on base; Write k1 v (fresh now 0 3153600000)] (empty_region false) /\
  get_update false 3 g now k1 = Row (app_i64 false (fresh now 0 3153600000) ++ v) base.
Proof.
  exists 1800000100000000, 1800000000000000, (row_bytes [(1, Varint 5)]). eexists.
  split; [|split; [unfold plausible; lia|split; reflexivity]].
  split; [reflexivity|]. exists [(1, Varint 5)]. split; [|reflexivity].
  constructor; [|constructor]. cbn. lia.
Qed.
Print Assumptions C88_far_expiry_refuted.

(* Unique index over a table whose primary key is a BIGINT holding a time in microseconds, TTL
   turned on later: the index entry of an old row is already gone. *)
Theorem C88_unique_index_refuted : exists base now pk g t,
  g = fold_left (apply false) [Write (Unique, [1]) pk 0; Turn_on base] (empty_region false) /\
  t = snd (fold_left step [Write (Unique, [1]) pk 0; Turn_on base] (false, [])) /\
  pk = app_i64 false 1700000000000000 /\
  look t now (Unique, [1]) = There pk (Some base) /\
  get_update false 3 g now (Unique, [1]) = Expired.
Proof.
  exists 1800000100000000, 1800000000000000. eexists. eexists. eexists.
  split; [reflexivity|]. split; [reflexivity|]. split; [reflexivity|]. split; reflexivity.
Qed.
Print Assumptions C88_unique_index_refuted.

(* Table with 96 columns, TTL turned on later: an old row whose first column that is not NULL is
   the 96th is already gone. *)
Theorem C88_wide_table_refuted : exists base now v g t,
  is_row 96 v /\
  g = fold_left (apply false) [Write k1 v 0; Turn_on base] (empty_region false) /\
  t = snd (fold_left step [Write k1 v 0; Turn_on base] (false, [])) /\
  look t now k1 = There v (Some base) /\
  get_update false 96 g now k1 = Expired.
Proof.
  exists 1950000000000000, 1900000000000000, (row_bytes [(96, Varint 34359738368)]). eexists. eexists.
  split; [|split; [reflexivity|split; [reflexivity|split; reflexivity]]].
  split; [reflexivity|]. exists [(96, Varint 34359738368)]. split; [|reflexivity].
  constructor; [|constructor]. cbn. lia.
Qed.
Print Assumptions C88_wide_table_refuted.

(* Table with 96 columns, TTL turned on earlier: a row with a suitable byte string, written at a
   suitable time, makes its reader loop for ever. *)
Theorem C88_reader_hangs_refuted : exists base now v e g,
  is_row 96 v /\ plausible e /\ now <= e /\
  g = fold_left (apply false) [Turn_on base; Write k1 v e] (empty_region false) /\
  find (rg_kv g) k1 = Some (app_i64 false e ++ v) /\
  (forall rounds, verify_loop rounds (app_i64 false e ++ v) 96 0 = VHang) /\
  get_update false 96 g now k1 = Hangs.
Proof.
  exists 1700000000000000, 1700000000000000, trap_row, trap_time. eexists.
  split; [|split; [split; reflexivity|split; [discriminate|split; [reflexivity|split; [reflexivity|split; [exact trap_hangs|reflexivity]]]]]].
  split; [reflexivity|]. exists [(2, Bytes trap_string)]. split; [|reflexivity].
  constructor; [|constructor]. cbn [fst snd wire_ok]. split; [lia|].
  unfold trap_string. repeat (constructor; [split; lia|]). constructor.
Qed.
Print Assumptions C88_reader_hangs_refuted.

(* A hint of 300000 years overflows the expiry. *)
Theorem C88_overflow_refuted : exists now hint s g,
  exec_statement false 3 now now hint 3600 s g = DmlUndef.
Proof.
  exists 1800000000000000, 9467280000000, (Insert [(k1, [])] Dup_error), (empty_region true). reflexivity.
Qed.
Print Assumptions C88_overflow_refuted.

(* ---- the hypotheses are met ---- *)

Definition row5 : list Z := row_bytes [(2, Varint 300); (3, Bytes [104; 105])].
Lemma row5_clear : clear_value 3 k1 row5.
Proof.
  split; [lia|]. split; [reflexivity|]. exists [(2, Varint 300); (3, Bytes [104; 105])]. split; [|reflexivity].
  constructor; [cbn; lia|]. constructor; [|constructor]. cbn [fst snd wire_ok]. split; [lia|]. repeat (constructor; [split; lia|]). constructor.
Qed.

Definition history : list op :=
  [Write k1 row5 0; Write (NonUnique, [9]) [] 0; Turn_on 1800000100000000; Write k2 row5 1800000050000000; Remove (NonUnique, [9])].
Example C88_history_met : history_fine 3 false history /\
  (let g := fold_left (apply false) history (empty_region false) in
   get_update false 3 g 1800000060000000 k1 = Row row5 1800000100000000 /\
   get_update false 3 g 1800000060000000 k2 = Expired /\
   get_update false 3 g 1800000050000000 k2 = Row row5 1800000050000000 /\
   scan false 3 true 1800000100000000 1800000060000000 (fun _ => true) (rg_kv g) = Rows [(k1, row5)]).
Proof.
  split.
  - cbn [history history_fine]. pose proof row5_clear as C. repeat split; try discriminate; try exact (proj1 C); try exact (proj2 (proj2 C)); try reflexivity; lia.
  - repeat split.
Qed.

Example C88_statement_met :
  statement_fine 3 0 (-1) (Update [k1; k2] (fun v => v)) /\
  i64_time (fresh 1800000000000000 (-1) 3600) /\
  run_statement 1800000000000000 1800000000000000 (-1) 3600 (Update [k1; k2] (fun v => 9 :: v))
    (snd (fold_left step [Write k1 [5] 1800000005000000; Write k2 [6] 1700000000000000] (true, [])))
  = Some [(k1, ([9; 5], Some 1800000005000000)); (k2, ([6], Some 1700000000000000))].
Proof. split; [intros k v _ H; exact H|]. split; [split; reflexivity|reflexivity]. Qed.
