(* Cases that meet the hypotheses of C52 - C57, and what is refuted *)
From Verif.Dml Require Import Model Spec Inv Stmt DdlModel Ddl Count Properties.
Local Open Scope Z_scope.

(* ---------------- a table: id, u, v; PRIMARY KEY (id), UNIQUE (u), KEY (v) ---------------- *)
Definition ix_u (sta : istate) := mkIx 1 true [1%nat] [0%nat] sta false.
Definition ix_v (sta : istate) := mkIx 2 false [2%nat] [0%nat] sta false.
Definition tab (dflt : nat -> cell) (su sv : istate) (ttl cst : bool) : table :=
  mkTb 3 [0%nat] dflt [ix_u su; ix_v sv] ttl cst.
Definition plain : table := tab (fun _ => None) Public Public false false.
Definition anywhere : list cell -> bool := fun _ => true.
Definition v (n : Z) : cell := Some [n].
Definition row (a b c : Z) : rec := [v a; v b; v c].
Definition yes : rec -> bool := fun _ => true.
(* INSERT; ON DUPLICATE KEY UPDATE us; UPDATE SET us; DELETE *)
Definition ins (us : list assign) (slots : list nat) (wttl : Z) (keep : bool) : stmt :=
  mkStmt InsertNode false false us slots yes false wttl keep false.
Definition repl : stmt := mkStmt InsertNode true false [] [] yes false 0 false false.
Definition ignore : stmt := mkStmt InsertNode false true [] [] yes false 0 false false.
Definition upd (us : list assign) (slots : list nat) : stmt :=
  mkStmt UpdateNode false false us slots yes false 0 false false.
Definition del : stmt := mkStmt DeleteNode false false [] [] yes false 0 false false.
(* SET f = c, and SET f = f + 1 *)
Definition set_to (f : nat) (c : cell) : assign := mkAs f (fun _ _ => c).
Definition plus_one (f : nat) : assign :=
  mkAs f (fun r _ => match fget r f with Some [n] => Some [n + 1] | c => c end).

Lemma wf_tab dflt su sv cst : wf_table (tab dflt su sv false cst).
Proof.
  split; [constructor; [intros []|constructor]|]. split; [repeat constructor|]. split; [|split].
  - intros ix [<-|[<-|[]]]; cbn; (split; [repeat constructor|]; split; [auto|]; intros f [<-|[]]; right; left; reflexivity).
  - intros ix ix' [<-|[<-|[]]] [<-|[<-|[]]]; cbn; intros X; try reflexivity; discriminate X.
  - reflexivity.
Qed.
Lemma wf_tab_ttl dflt su sv : wf_table (tab dflt su sv true false).
Proof. destruct (wf_tab dflt su sv false) as (A & B & C & D & _). split; [exact A|]. split; [exact B|]. split; [exact C|]. split; [exact D|]. discriminate. Qed.
Lemma wf_row_v dflt su sv ttl cst a b c : wf_row (tab dflt su sv ttl cst) (row a b c).
Proof.
  split; [reflexivity|]. split; [reflexivity|]. intros f Hf. destruct f as [|[|[|f]]]; cbn; try discriminate.
  intros _. unfold tb_cols, tab in Hf. lia.
Qed.
Lemma wf_key_v dflt su sv ttl cst a : wf_key (tab dflt su sv ttl cst) [v a].
Proof. split; reflexivity. Qed.
Lemma wf_set_v tb f a : (f < tb_cols tb)%nat -> forall s, s_updates s = [set_to f (v a)] -> wf_stmt tb s.
Proof. intros Hf s E a0. rewrite E. intros [<-|[]]. split; [exact Hf|]. intros r0 w X. discriminate X. Qed.
Lemma wf_none tb s : s_updates s = [] -> wf_stmt tb s.
Proof. intros E a0. rewrite E. intros []. Qed.
Definition now (tb : table) : env := mkEnv tb 0 anywhere.

(* rows, and what a REPLACE that meets two rows, an UPDATE and a DELETE leave *)
Definition after (r : option (ctx * Z)) : store := match r with Some (c, _) => c_st c | None => mkSt [] [] end.
Definition count (r : option (ctx * Z)) : option Z := option_map snd r.
Definition st3 : store := after (run_insert (now plain) (ins [] [] 0 false) (mkSt [] []) [row 1 10 5; row 2 20 5; row 3 30 6]).

Lemma insert_ins tb : wf_insert (now tb) (ins [] [] 0 false).
Proof. split; [reflexivity|]. split; [reflexivity|]. split; [reflexivity|]. discriminate. Qed.
Lemma time_off tb s : tb_ttl tb = false -> wf_time (now tb) s.
Proof. intros E X. cbn in X. congruence. Qed.
Lemma life_st3 : life (now plain) (mkSt [] []) (now plain) st3.
Proof.
  eapply life_insert with (s := ins [] [] 0 false) (rs := [row 1 10 5; row 2 20 5; row 3 30 6]).
  - apply wf_none. reflexivity.
  - apply time_off. reflexivity.
  - apply insert_ins.
  - repeat constructor; apply wf_row_v.
  - vm_compute. reflexivity.
  - apply life_here.
Qed.
Example C53_ex : consistent (now plain) st3.
Proof. exact (C53_indexes_agree (now plain) _ _ _ (wf_tab _ _ _ _) (C53_empty _) life_st3). Qed.
Example C52_insert_ex :
  count (run_insert (now plain) (ins [] [] 0 false) st3 [row 4 40 7]) = Some 1 /\
  run_insert (now plain) (ins [] [] 0 false) st3 [row 4 40 7; row 1 50 5] = None /\
  run_insert (now plain) (ins [] [] 0 false) st3 [row 4 20 7] = None /\
  count (run_insert (now plain) repl st3 [row 1 20 9]) = Some 3 /\
  rows (now plain) (after (run_insert (now plain) repl st3 [row 1 20 9])) [v 2] = None /\
  rows (now plain) (after (run_insert (now plain) repl st3 [row 1 20 9])) [v 1] = Some (0, row 1 20 9) /\
  count (run_insert (now plain) ignore st3 [row 9 20 9; row 8 80 8]) = Some 1 /\
  count (run_insert (now plain) (ins [plus_one 2%nat] [2%nat] 0 false) st3 [row 1 90 9]) = Some 2 /\
  rows (now plain) (after (run_insert (now plain) (ins [plus_one 2%nat] [2%nat] 0 false) st3 [row 1 90 9])) [v 1] = Some (0, row 1 10 6).
Proof. vm_compute. repeat split; reflexivity. Qed.
Example C52_insert_ex_hyps : wf_insert (now plain) repl /\ wf_insert (now plain) ignore /\
  wf_insert (now plain) (ins [set_to 2%nat (v 8)] [2%nat] 0 false).
Proof.
  split; [|split].
  - split; [reflexivity|]. split; [reflexivity|]. split; [reflexivity|]. discriminate.
  - split; [reflexivity|]. split; [reflexivity|]. split; [reflexivity|]. discriminate.
  - split; [reflexivity|]. split; [reflexivity|]. split; [reflexivity|]. intros _. split; [reflexivity|]. split; [|left; reflexivity].
    intros f [<-|[]]. right. left. vm_compute. auto.
Qed.
Example C52_update_ex : wf_update (now plain) (upd [set_to 1%nat (v 99)] [1%nat]) /\
  count (run_update (now plain) (upd [set_to 1%nat (v 99)] [1%nat]) st3 [[v 1]; [v 7]]) = Some 1 /\
  rows (now plain) (after (run_update (now plain) (upd [set_to 1%nat (v 99)] [1%nat]) st3 [[v 1]])) [v 1] = Some (0, row 1 99 5) /\
  run_update (now plain) (upd [set_to 1%nat (v 99)] [1%nat]) st3 [[v 1]; [v 2]] = None.
Proof.
  split; [|vm_compute; repeat split; reflexivity].
  split; [reflexivity|]. split; [reflexivity|]. split; [discriminate|]. split; [reflexivity|]. split; [reflexivity|]. left. reflexivity.
Qed.
Example C52_delete_ex : wf_delete del /\ count (run_delete (now plain) del st3 [[v 2]; [v 3]]) = Some 2 /\
  rows (now plain) (after (run_delete (now plain) del st3 [[v 2]; [v 3]])) [v 2] = None.
Proof. vm_compute. repeat split; reflexivity. Qed.
Example C57_ex : NoDup (map fst (st_rows st3)) /\ option_map (fun x => c_incr (fst x)) (run_insert (now plain) repl st3 [row 1 20 9]) = Some (-1).
Proof.
  split; [|vm_compute; reflexivity].
  assert (E : run_insert (now plain) (ins [] [] 0 false) (mkSt [] []) [row 1 10 5; row 2 20 5; row 3 30 6] = Some (mkCtx st3 0 3, 3)) by (vm_compute; reflexivity).
  destruct (C57_insert (now plain) (ins [] [] 0 false) (mkSt [] []) [row 1 10 5; row 2 20 5; row 3 30 6] (mkCtx st3 0 3) 3) as [_ X]; try exact X.
  - apply wf_tab.
  - apply C53_empty.
  - constructor.
  - apply wf_none. reflexivity.
  - apply time_off. reflexivity.
  - apply insert_ins.
  - repeat constructor; apply wf_row_v.
  - exact E.
Qed.

(* ---------------- C52: refuted cases ---------------- *)
(* SET v = NULL on a column that may be NULL and has DEFAULT 7: the row then has 7 *)
Definition dflt7 (f : nat) : cell := match f with 2%nat => v 7 | _ => None end.
Definition with_default : table := tab dflt7 Public Public false false.
Definition st_d : store := after (run_insert (now with_default) (ins [] [] 0 false) (mkSt [] []) [row 1 10 5]).
Lemma life_st_d : life (now with_default) (mkSt [] []) (now with_default) st_d.
Proof.
  eapply life_insert with (s := ins [] [] 0 false) (rs := [row 1 10 5]).
  - apply wf_none. reflexivity.
  - apply time_off. reflexivity.
  - apply insert_ins.
  - repeat constructor; apply wf_row_v.
  - vm_compute. reflexivity.
  - apply life_here.
Qed.
Lemma upd_null_wf tb : wf_update (now tb) (upd [set_to 2%nat None] []).
Proof. split; [reflexivity|]. split; [reflexivity|]. split; [discriminate|]. split; [reflexivity|]. split; [reflexivity|]. right. reflexivity. Qed.
Theorem C52_set_null_refuted : exists ev s st p,
  wf_table (e_tb ev) /\ consistent ev st /\ wf_update ev s /\ wf_time ev s /\ wf_key (e_tb ev) p /\
  s_updates s = [set_to 2%nat None] /\ ~ In 2%nat (tb_pk (e_tb ev)) /\
  exists c o, run_update ev s st [p] = Some (c, 1) /\ rows ev (c_st c) p = Some (0, o) /\ fget o 2 = v 7.
Proof.
  exists (now with_default), (upd [set_to 2%nat None] []), st_d, [v 1].
  split; [apply wf_tab|]. split; [exact (C53_indexes_agree (now with_default) _ _ _ (wf_tab _ _ _ _) (C53_empty _) life_st_d)|].
  split; [apply upd_null_wf|]. split; [apply time_off; reflexivity|]. split; [apply wf_key_v|]. split; [reflexivity|]. split; [intros [X|[]]; discriminate X|].
  eexists _, (row 1 10 7). split; [vm_compute; reflexivity|]. split; vm_compute; reflexivity.
Qed.
Print Assumptions C52_set_null_refuted.
(* a column store: ON DUPLICATE KEY UPDATE v = v + 1 on a row with v = 5 does not make it 6 *)
Definition columns_nov : table := mkTb 3 [0%nat] (fun _ => None) [ix_u Public] false true.
Lemma wf_columns_nov : wf_table columns_nov.
Proof.
  destruct (wf_tab (fun _ => None) Public Public true) as (A & B & C & D & _). split; [exact A|]. split; [exact B|].
  split; [|split; [|reflexivity]]; cbn.
  - intros ix [<-|[]]. apply C. left. reflexivity.
  - intros ix ix' [<-|[]] [<-|[]] _. reflexivity.
Qed.
Definition count_up : stmt := ins [mkAs 2%nat (fun r _ => match fget r 2 with Some [n] => Some [n + 1] | _ => v 0 end)] [2%nat] 0 false.
Definition st_c : store := after (run_insert (now columns_nov) (ins [] [] 0 false) (mkSt [] []) [row 1 10 5]).
Lemma life_st_c : life (now columns_nov) (mkSt [] []) (now columns_nov) st_c.
Proof.
  eapply life_insert with (s := ins [] [] 0 false) (rs := [row 1 10 5]).
  - apply wf_none. reflexivity.
  - apply time_off. reflexivity.
  - apply insert_ins.
  - constructor; [|constructor]. exact (wf_row_v (fun _ => None) Public Public false true 1 10 5).
  - vm_compute. reflexivity.
  - apply life_here.
Qed.
Theorem C52_column_store_refuted : exists ev s st r p o o',
  wf_table (e_tb ev) /\ consistent ev st /\ wf_stmt (e_tb ev) s /\ wf_time ev s /\ wf_row (e_tb ev) r /\
  on_dup s = true /\ affect_pk (e_tb ev) s = false /\ s_slots s = [2%nat] /\
  rows ev st p = Some (0, o) /\ fget o 2 = v 5 /\ fget (set_row s o r) 2 = v 6 /\
  exists c, run_insert ev s st [r] = Some (c, 2) /\ rows ev (c_st c) p = Some (0, o') /\ fget o' 2 = v 0.
Proof.
  exists (now columns_nov), count_up, st_c, (row 1 90 9), [v 1], (row 1 10 5), (row 1 10 0).
  split; [exact wf_columns_nov|]. split; [exact (C53_indexes_agree (now columns_nov) _ _ _ wf_columns_nov (C53_empty _) life_st_c)|].
  split. { intros a [<-|[]]. split; [cbn; lia|]. intros r0 w X. cbn in X. destruct (fget r0 2) as [[|? [|]]|]; discriminate X. }
  split; [apply time_off; reflexivity|]. split; [exact (wf_row_v (fun _ => None) Public Public false true 1 90 9)|].
  split; [reflexivity|]. split; [reflexivity|]. split; [reflexivity|].
  split; [vm_compute; reflexivity|]. split; [reflexivity|]. split; [vm_compute; reflexivity|].
  eexists. split; [vm_compute; reflexivity|]. split; vm_compute; reflexivity.
Qed.
Print Assumptions C52_column_store_refuted.
(* ON DUPLICATE KEY UPDATE id = 500, where 500 belongs to another region: the row is gone *)
Definition below_100 (p : list cell) : bool := match p with [Some [n]] => n <? 100 | _ => false end.
Theorem C52_key_moved_away_refuted : exists ev s st r p o,
  wf_table (e_tb ev) /\ consistent ev st /\ wf_stmt (e_tb ev) s /\ wf_time ev s /\ wf_row (e_tb ev) r /\
  s_node s = InsertNode /\ s_updates s = [set_to 0%nat (v 500)] /\ reads_covered (e_tb ev) s /\
  rows ev st p = Some (0, o) /\
  exists c, run_insert ev s st [r] = Some (c, 2) /\ forall q, rows ev (c_st c) q = None.
Proof.
  set (ev := mkEnv plain 0 below_100).
  exists ev, (ins [set_to 0%nat (v 500)] [] 0 false), (after (run_insert ev (ins [] [] 0 false) (mkSt [] []) [row 1 10 5])), (row 1 90 9), [v 1], (row 1 10 5).
  split; [apply wf_tab|]. split.
  { apply (C53_indexes_agree ev (mkSt [] []) ev); [apply wf_tab|apply C53_empty|].
    eapply life_insert with (s := ins [] [] 0 false) (rs := [row 1 10 5]).
    - apply wf_none. reflexivity.
    - intros X. discriminate X.
    - split; [reflexivity|]. split; [reflexivity|]. split; [reflexivity|]. discriminate.
    - repeat constructor; apply wf_row_v.
    - vm_compute. reflexivity.
    - apply life_here. }
  split; [apply (wf_set_v plain 0%nat 500); [cbn; lia|reflexivity]|]. split; [intros X; discriminate X|]. split; [apply wf_row_v|].
  split; [reflexivity|]. split; [reflexivity|]. split; [intros f []|]. split; [vm_compute; reflexivity|].
  eexists. split; [vm_compute; reflexivity|]. intros q. unfold rows. destruct (e_fits ev q); reflexivity.
Qed.
Print Assumptions C52_key_moved_away_refuted.
(* rows keep their expiry time: INSERT (1), (2) .. ON DUPLICATE KEY UPDATE, of which only 1 is
   there and expires at 100, makes the new row 2 expire at 100 too *)
Definition ttl_tab : table := tab (fun _ => None) Public Public true false.
Definition at_time (t : Z) : env := mkEnv ttl_tab t anywhere.
Theorem C52_keep_ttl_refuted : exists ev s st r1 r2 p,
  wf_table (e_tb ev) /\ consistent ev st /\ wf_stmt (e_tb ev) s /\ wf_time ev s /\ wf_row (e_tb ev) r1 /\ wf_row (e_tb ev) r2 /\
  on_dup s = true /\ affect_pk (e_tb ev) s = false /\ s_keep s = true /\
  rows ev st p = None /\ pk_of (e_tb ev) r2 = p /\ s_wttl s = 1000 /\
  exists c o, run_insert ev s st [r1; r2] = Some (c, 3) /\ rows ev (c_st c) p = Some (100, o).
Proof.
  exists (at_time 10), (ins [set_to 2%nat (v 8)] [] 1000 true),
    (after (run_insert (at_time 10) (ins [] [] 100 false) (mkSt [] []) [row 1 10 5])), (row 1 90 9), (row 2 20 5), [v 2].
  split; [apply wf_tab_ttl|]. split.
  { apply (C53_indexes_agree (at_time 10) (mkSt [] []) (at_time 10)); [apply wf_tab_ttl|apply C53_empty|].
    eapply life_insert with (s := ins [] [] 100 false) (rs := [row 1 10 5]).
    - apply wf_none. reflexivity.
    - intros _. cbn. lia.
    - split; [reflexivity|]. split; [reflexivity|]. split; [reflexivity|]. discriminate.
    - repeat constructor; apply wf_row_v.
    - vm_compute. reflexivity.
    - apply life_here. }
  split; [apply (wf_set_v ttl_tab 2%nat 8); [cbn; lia|reflexivity]|]. split; [intros _; cbn; lia|]. split; [apply wf_row_v|]. split; [apply wf_row_v|].
  split; [reflexivity|]. split; [reflexivity|]. split; [reflexivity|]. split; [vm_compute; reflexivity|]. split; [reflexivity|]. split; [reflexivity|].
  eexists _, (row 2 20 5). split; vm_compute; reflexivity.
Qed.
Print Assumptions C52_keep_ttl_refuted.

(* ---------------- C53: refuted case ---------------- *)
(* the same SET v = NULL, then DELETE: the index keeps a record of a row that is not there *)
Theorem C53_set_null_refuted : exists ev s1 s2 st p c1 c2,
  wf_table (e_tb ev) /\ consistent ev st /\ wf_update ev s1 /\ wf_delete s2 /\ wf_key (e_tb ev) p /\
  s_updates s1 = [set_to 2%nat None] /\
  run_update ev s1 st [p] = Some (c1, 1) /\ run_delete ev s2 (c_st c1) [p] = Some (c2, 1) /\
  rows ev (c_st c2) p = None /\ holds (c_st c2) (ix_v Public) [None] p 0 /\ ~ consistent ev (c_st c2).
Proof.
  exists (now with_default), (upd [set_to 2%nat None] []), del, st_d, [v 1].
  eexists _, _. split; [apply wf_tab|]. split; [exact (C53_indexes_agree (now with_default) _ _ _ (wf_tab _ _ _ _) (C53_empty _) life_st_d)|].
  split; [apply upd_null_wf|]. split; [split; reflexivity|]. split; [apply wf_key_v|]. split; [reflexivity|].
  split; [vm_compute; reflexivity|]. split; [vm_compute; reflexivity|]. split; [vm_compute; reflexivity|]. split; [vm_compute; reflexivity|].
  intros [_ X]. destruct (X (ix_v Public)) as [Sn _]; [right; left; reflexivity|].
  destruct (Sn eq_refl [None] [v 1] 0) as (o & R & _); [vm_compute; reflexivity|reflexivity|reflexivity|]. vm_compute in R. discriminate R.
Qed.
Print Assumptions C53_set_null_refuted.

(* ---------------- C54: NULL ---------------- *)
(* SQL lets any number of rows have NULL in the columns of a UNIQUE index *)
Theorem C54_null_refuted : exists ev s st r1 r2,
  wf_table (e_tb ev) /\ consistent ev st /\ wf_insert ev s /\ wf_row (e_tb ev) r1 /\ wf_row (e_tb ev) r2 /\
  pk_of (e_tb ev) r1 <> pk_of (e_tb ev) r2 /\
  (forall ix, In ix (tb_indexes (e_tb ev)) -> ix_uniq ix = true -> proj r2 (ix_fields ix) = [None]) /\
  run_insert ev s st [r1; r2] = None /\ run_insert ev s st [r1] <> None /\ run_insert ev s st [r2] <> None.
Proof.
  assert (W : forall a, wf_row plain [v a; None; v 5]).
  { intros a. split; [reflexivity|]. split; [reflexivity|]. intros f _ _. reflexivity. }
  exists (now plain), (ins [] [] 0 false), (mkSt [] []), [v 1; None; v 5], [v 2; None; v 5].
  split; [apply wf_tab|]. split; [apply C53_empty|]. split; [apply insert_ins|]. split; [apply W|]. split; [apply W|].
  split; [discriminate|]. split; [intros ix [<-|[<-|[]]]; [reflexivity|discriminate]|].
  split; [vm_compute; reflexivity|]. split; vm_compute; discriminate.
Qed.
Print Assumptions C54_null_refuted.

(* ---------------- C55: a UNIQUE index added while statements run ---------------- *)
Definition only_u : table := mkTb 3 [0%nat] (fun _ => None) [ix_u WriteLocal] false false.
Lemma wf_only_u : wf_table only_u.
Proof.
  destruct (wf_tab (fun _ => None) WriteLocal Public false) as (A & B & C & D & _). split; [exact A|]. split; [exact B|].
  split; [|split; [|reflexivity]]; cbn.
  - intros ix [<-|[]]. apply C. left. reflexivity.
  - intros ix ix' [<-|[]] [<-|[]] _. reflexivity.
Qed.
Definition st_u : store := mkSt [([v 1], (0, row 1 5 0))] [].
Lemma rows_st_u tb q e o : rows (now tb) st_u q = Some (e, o) -> q = [v 1] /\ (e = 0 \/ tb_ttl tb = true).
Proof.
  unfold rows, st_u, prow. cbn [e_fits now anywhere st_rows mget]. destruct (cells_dec q [v 1]) as [->|]; [|discriminate].
  destruct (expired _ 0); [discriminate|]. intros X. injection X as <- _. auto.
Qed.
Lemma st_u_but : consistent_but (ix_u WriteLocal) (now only_u) st_u.
Proof.
  split.
  - intros q e o R. destruct (rows_st_u _ _ _ _ R) as [-> [->|X]]; [auto|discriminate X].
  - intros ix [<-|[]]. split; [intros _ cs rest e X; discriminate X|]. intros _ X. congruence.
Qed.
(* row 1 has u = 5; (2, 5) is inserted, row 1 is deleted, the filling of the index comes by and
   finds no row 1; the index lacks row 2: it is UNIQUE, and (3, 5) can be inserted *)
Theorem C55_add_unique_refuted : exists ix ev st l st1 st2,
  wf_table (e_tb ev) /\ In ix (tb_indexes (e_tb ev)) /\ in_use ix = true /\ ix_uniq ix = true /\
  consistent_but ix ev st /\ (forall q e o, rows ev st q = Some (e, o) -> In q l) /\
  building ix ev st l ev st1 /\ life ev st1 ev st2 /\
  ~ consistent ev st1 /\ ~ no_duplicates ev st2 ix.
Proof.
  set (ev := now only_u). set (i := ins [] [] 0 false).
  assert (INS : forall st st1 n a b c, run_insert ev i st [row a b c] = Some (mkCtx st1 0 n, 1) -> life ev st ev st1).
  { intros st st1 n a b c E. eapply life_insert with (s := i) (rs := [row a b c]).
    - apply wf_none. reflexivity.
    - intros X. discriminate X.
    - apply insert_ins.
    - constructor; [|constructor]. exact (wf_row_v (fun _ => None) WriteLocal Public false false a b c).
    - exact E.
    - apply life_here. }
  set (sa := after (run_insert ev i st_u [row 2 5 0])).
  set (sb := after (run_delete ev del sa [[v 1]])).
  set (sc := after (run_insert ev i sb [row 3 5 0])).
  exists (ix_u WriteLocal), ev, st_u, [[v 1]], sb, sc.
  split; [exact wf_only_u|]. split; [left; reflexivity|]. split; [reflexivity|]. split; [reflexivity|].
  split; [exact st_u_but|]. split; [intros q e o R; destruct (rows_st_u _ _ _ _ R) as [-> _]; left; reflexivity|].
  split; [|split; [|split]].
  - apply (bd_life _ ev st_u ev sa); [apply (INS st_u sa 1 2 5 0); vm_compute; reflexivity|].
    apply (bd_life _ ev sa ev sb).
    + eapply life_delete with (s := del) (ps := [[v 1]]).
      * split; reflexivity.
      * constructor; [split; reflexivity|constructor].
      * vm_compute. reflexivity.
      * apply life_here.
    + apply (bd_row _ ev sb [v 1] sb); [split; reflexivity|vm_compute; reflexivity|]. apply bd_here.
  - apply (INS sb sc 1 3 5 0). vm_compute. reflexivity.
  - intros [_ X]. destruct (X (ix_u WriteLocal)) as [_ C]; [left; reflexivity|].
    pose proof (C eq_refl [v 2] 0 (row 2 5 0) Logic.I) as Y. assert (R : rows ev sb [v 2] = Some (0, row 2 5 0)) by (vm_compute; reflexivity).
    apply Y in R. vm_compute in R. discriminate R.
  - intros X. assert (E : [v 2] = [v 3]); [|discriminate E].
    apply (X [v 2] 0 (row 2 5 0) [v 3] 0 (row 3 5 0)); vm_compute; reflexivity.
Qed.
Print Assumptions C55_add_unique_refuted.

Definition only_v : table := mkTb 3 [0%nat] (fun _ => None) [ix_v WriteLocal] false false.
Lemma wf_only_v : wf_table only_v.
Proof.
  destruct (wf_tab (fun _ => None) Public WriteLocal false) as (A & B & C & D & _). split; [exact A|]. split; [exact B|].
  split; [|split; [|reflexivity]]; cbn.
  - intros ix [<-|[]]. apply C. right. left. reflexivity.
  - intros ix ix' [<-|[]] [<-|[]] _. reflexivity.
Qed.
(* the same history with a KEY index *)
Example C55_add_key_ex : exists st1, building (ix_v WriteLocal) (now only_v) st_u [[v 1]] (now only_v) st1 /\
  consistent_but (ix_v WriteLocal) (now only_v) st_u /\ rows (now only_v) st1 [v 2] = Some (0, row 2 5 0) /\
  consistent (now only_v) st1.
Proof.
  set (ev := now only_v). set (i := ins [] [] 0 false).
  set (sa := after (run_insert ev i st_u [row 2 5 0])).
  set (sb := match backfill ev (ix_v WriteLocal) sa [v 1] with Some x => x | None => sa end).
  assert (CB : consistent_but (ix_v WriteLocal) ev st_u).
  { split.
    - intros q e o R. destruct (rows_st_u _ _ _ _ R) as [-> [->|X]]; [auto|discriminate X].
    - intros ix [<-|[]]. split; [intros _ cs rest e X; discriminate X|]. intros _ X. congruence. }
  assert (B : building (ix_v WriteLocal) ev st_u [[v 1]] ev sb).
  { apply (bd_life _ ev st_u ev sa).
    - eapply life_insert with (s := i) (rs := [row 2 5 0]).
      + apply wf_none. reflexivity.
      + intros X. discriminate X.
      + apply insert_ins.
      + constructor; [|constructor]. exact (wf_row_v (fun _ => None) WriteLocal Public false false 2 5 0).
      + vm_compute. reflexivity.
      + apply life_here.
    - apply (bd_row _ ev sa [v 1] sb); [split; reflexivity|vm_compute; reflexivity|]. apply bd_here. }
  exists sb. split; [exact B|]. split; [exact CB|]. split; [vm_compute; reflexivity|].
  apply (C55_add_key (ix_v WriteLocal) ev st_u [[v 1]] ev sb); auto.
  - exact wf_only_v.
  - left. reflexivity.
  - intros q e o R. destruct (rows_st_u _ _ _ _ R) as [-> _]. left. reflexivity.
Qed.
Example C55_add_unique_quiet_ex :
  (exists st1, backfill_all (now only_u) (ix_u WriteLocal) st_u [[v 1]] = Some st1 /\ holds st1 (ix_u WriteLocal) [v 5] [v 1] 0) /\
  backfill_all (now only_u) (ix_u WriteLocal) (mkSt [([v 1], (0, row 1 5 0)); ([v 2], (0, row 2 5 1))] []) [[v 1]; [v 2]] = None.
Proof. split; [|vm_compute; reflexivity]. eexists. split; vm_compute; reflexivity. Qed.

(* ---------------- C56: outside a transaction ---------------- *)
(* UPDATE t SET u = 99 of two rows in two batches: Duplicate entry, and the first row has 99 *)
Theorem C56_autocommit_refuted : exists ev s st bs p o o',
  wf_table (e_tb ev) /\ consistent ev st /\ wf_stmt (e_tb ev) s /\ wf_update ev s /\ Forall (wf_key (e_tb ev)) (concat bs) /\
  snd (update_batches ev s true st bs) = None /\
  rows ev st p = Some (0, o) /\ rows ev (fst (update_batches ev s true st bs)) p = Some (0, o') /\ o <> o'.
Proof.
  exists (now plain), (upd [set_to 1%nat (v 99)] [1%nat]), st3, [[[v 1]]; [[v 2]]], [v 1], (row 1 10 5), (row 1 99 5).
  split; [apply wf_tab|]. split; [exact C53_ex|]. split; [apply (wf_set_v plain 1%nat 99); [cbn; lia|reflexivity]|].
  split; [exact (proj1 C52_update_ex)|]. split; [repeat constructor|]. split; [vm_compute; reflexivity|].
  split; [vm_compute; reflexivity|]. split; [vm_compute; reflexivity|]. discriminate.
Qed.
Print Assumptions C56_autocommit_refuted.
Example C56_ex : snd (update_batches (now plain) (upd [set_to 1%nat (v 99)] [1%nat]) false st3 [[[v 1]]; [[v 2]]]) = None /\
  fst (update_batches (now plain) (upd [set_to 1%nat (v 99)] [1%nat]) false st3 [[[v 1]]; [[v 2]]]) = st3 /\
  count (snd (update_batches (now plain) (upd [plus_one 2%nat] [2%nat]) true st3 [[[v 1]]; [[v 2]]])) = Some 2.
Proof. vm_compute. repeat split; reflexivity. Qed.
