(* C52 - C57: what INSERT, REPLACE, UPDATE and DELETE do to the rows and to the indexes of a
   table, and the building of an index while statements run *)
From Verif.Dml Require Import Model Spec Inv Stmt DdlModel Ddl Count.
Local Open Scope Z_scope.

(* ---------------- C52: a statement does to the rows what SQL says ---------------- *)
Theorem C52_insert : forall ev s st rs,
  wf_table (e_tb ev) -> consistent ev st -> wf_stmt (e_tb ev) s -> wf_time ev s -> wf_insert ev s -> Forall (wf_row (e_tb ev)) rs ->
  all_rows (insert_spec ev s (expiry ev s)) (rows ev st) rs (view ev (run_insert ev s st rs)).
Proof.
  intros ev s st rs WT CS WS Wt WI F. apply consistent_inv in CS.
  pose proof (insert_stmt ev Pst WT (fun ix q _ X => X) (fun ix q q' _ X => X) s st rs WS Wt WI F CS) as X.
  destruct (run_insert ev s st rs) as [[c n]|]; cbn; [destruct X as [_ X]|]; apply X; intros ix q; intros; assumption.
Qed.
Theorem C52_update : forall ev s st ps,
  wf_table (e_tb ev) -> consistent ev st -> wf_stmt (e_tb ev) s -> wf_time ev s -> wf_update ev s -> Forall (wf_key (e_tb ev)) ps ->
  all_rows (update_spec ev s (expiry ev s)) (rows ev st) ps (view ev (run_update ev s st ps)).
Proof.
  intros ev s st ps WT CS WS Wt WI F. apply consistent_inv in CS.
  pose proof (update_stmt ev Pst WT (fun ix q _ X => X) (fun ix q q' _ X => X) s st ps WS Wt WI F CS) as X.
  destruct (run_update ev s st ps) as [[c n]|]; cbn; [destruct X as [_ X]|]; apply X; intros ix q; intros; assumption.
Qed.
Theorem C52_delete : forall ev s st ps,
  wf_table (e_tb ev) -> consistent ev st -> wf_delete s -> Forall (wf_key (e_tb ev)) ps ->
  all_rows (delete_spec s) (rows ev st) ps (view ev (run_delete ev s st ps)) /\ run_delete ev s st ps <> None.
Proof.
  intros ev s st ps WT CS WI F. apply consistent_inv in CS.
  destruct (delete_stmt ev Pst WT (fun ix q q' _ X => X) s st ps WI F CS) as (c & n & E & _ & X). rewrite E. split; [exact X|discriminate].
Qed.
Print Assumptions C52_insert.
Print Assumptions C52_update.
Print Assumptions C52_delete.

(* ---------------- C53: the indexes agree with the rows ---------------- *)
Theorem C53_indexes_agree : forall ev st ev' st',
  wf_table (e_tb ev) -> consistent ev st -> life ev st ev' st' -> consistent ev' st'.
Proof.
  intros ev st ev' st' WT CS L. apply consistent_inv in CS. apply consistent_inv.
  exact (proj2 (life_inv Pst ev st ev' st' L WT (fun ix q _ X => X) (fun ix q q' _ X => X) CS)).
Qed.
Print Assumptions C53_indexes_agree.
(* a new table starts so *)
Theorem C53_empty : forall ev, consistent ev (mkSt [] []).
Proof.
  intros ev. split.
  - intros q e o. unfold rows. destruct (e_fits ev q); discriminate.
  - intros ix _. split.
    + intros _ cs rest e X. discriminate X.
    + intros _ q e o _. unfold rows. destruct (e_fits ev q); discriminate.
Qed.
Print Assumptions C53_empty.
(* reading through a KEY index finds exactly the rows that have the values *)
Theorem C53_index_lookup : forall ev st ev' st' ix cs q e o,
  wf_table (e_tb ev) -> consistent ev st -> life ev st ev' st' ->
  In ix (tb_indexes (e_tb ev)) -> ix_state ix = Public -> rows ev' st' q = Some (e, o) ->
  (proj o (ix_fields ix) = cs <-> exists rest, holds st' ix cs rest e /\ entry_pk (e_tb ev) ix cs rest = q).
Proof.
  intros ev st ev' st' ix cs q e o WT CS L Hix Pb R.
  pose proof (C53_indexes_agree ev st ev' st' WT CS L) as [K C].
  assert (Et : e_tb ev' = e_tb ev).
  { apply consistent_inv in CS. exact (proj1 (life_inv Pst ev st ev' st' L WT (fun ix q _ X => X) (fun ix q q' _ X => X) CS)). }
  rewrite Et in C. destruct (C ix Hix) as [Sn Cp].
  assert (Rm : removable ix = true) by (unfold removable; rewrite Pb; reflexivity).
  assert (Wr : in_use ix = true) by (unfold in_use; rewrite Pb; reflexivity).
  assert (WT' : wf_table (e_tb ev')) by (rewrite Et; exact WT).
  split.
  - intros <-. exists (proj o (ix_rest ix)). split; [exact (Cp Wr q e o Logic.I R)|]. rewrite <- Et.
    apply (entry_live ev' WT' st' ix q e o K); [rewrite Et; exact Hix|exact R].
  - intros (rest & Hd & Ep). rewrite <- Et in Ep. destruct (Sn Rm cs rest e Hd) as (o' & R' & Pc & _).
    + destruct (rows_info ev' _ _ _ _ R) as (_ & X & _). exact X.
    + rewrite Ep. destruct (rows_info ev' _ _ _ _ R) as (X & _). exact X.
    + rewrite Ep, R in R'. injection R' as <-. exact Pc.
Qed.
Print Assumptions C53_index_lookup.

(* ---------------- C54: UNIQUE ---------------- *)
Theorem C54_unique : forall ev st ev' st' ix,
  wf_table (e_tb ev) -> consistent ev st -> life ev st ev' st' ->
  In ix (tb_indexes (e_tb ev)) -> ix_uniq ix = true -> in_use ix = true ->
  no_duplicates ev' st' ix.
Proof.
  intros ev st ev' st' ix WT CS L Hix U W q e o q' e' o' R R' E. apply consistent_inv in CS.
  destruct (life_inv Pst ev st ev' st' L WT (fun ix q _ X => X) (fun ix q q' _ X => X) CS) as [Et INV].
  assert (WT' : wf_table (e_tb ev')) by (rewrite Et; exact WT).
  apply (uniq_two ev' WT' Pst (fun ix q q' _ X => X) nobody st' ix q e o q' e' o' INV); auto.
  rewrite Et. exact Hix.
Qed.
Print Assumptions C54_unique.

(* ---------------- C55: an index added while statements run ---------------- *)
Theorem C55_add_key : forall ix ev st l ev' st',
  wf_table (e_tb ev) -> In ix (tb_indexes (e_tb ev)) -> in_use ix = true -> ix_uniq ix = false ->
  consistent_but ix ev st ->
  (forall q e o, rows ev st q = Some (e, o) -> In q l) ->
  building ix ev st l ev' st' -> consistent ev' st'.
Proof. exact online_key. Qed.
Print Assumptions C55_add_key.
Theorem C55_add_unique_quiet : forall ix ev st qs,
  wf_table (e_tb ev) -> In ix (tb_indexes (e_tb ev)) -> in_use ix = true ->
  consistent_but ix ev st -> Forall (wf_key (e_tb ev)) qs ->
  (forall q e o, rows ev st q = Some (e, o) -> In q qs) ->
  match backfill_all ev ix st qs with
  | Some st' => consistent ev st' /\ eqc (rows ev st') (rows ev st)
  | None => exists q q' e o e' o', q' <> q /\ rows ev st q = Some (e, o) /\ rows ev st q' = Some (e', o') /\
              proj o (ix_fields ix) = proj o' (ix_fields ix)
  end.
Proof. exact offline_unique. Qed.
Print Assumptions C55_add_unique_quiet.

(* ---------------- C56: a statement is done or has no effect ---------------- *)
(* in a transaction: whatever the batches, the answer is that of the statement in one piece,
   and what an error leaves is what was there *)
Theorem C56_update_in_transaction : forall ev s st bs,
  match run_update ev s st (concat bs) with
  | None => update_batches ev s false st bs = (st, None)
  | Some (c, n) => update_batches ev s false st bs = (c_st c, Some (c, n))
  end.
Proof.
  intros ev s st bs. unfold run_update, update_batches.
  destruct (batches_spec (fun c p => update_row ev s [] c (key_rec (e_tb ev) p)) false st (start ev s st) bs 0) as (X & Y & Z).
  destruct (each _ _ (concat bs) 0) as [[c n]|] eqn:E; destruct (batches _ _ _ _ _ _) as [d r]; cbn in *; subst r; f_equal.
  - exact (Z c n eq_refl).
  - exact (Y eq_refl eq_refl).
Qed.
Theorem C56_delete : forall ev s auto st bs,
  wf_table (e_tb ev) -> consistent ev st -> wf_delete s -> Forall (wf_key (e_tb ev)) (concat bs) ->
  exists c n, run_delete ev s st (concat bs) = Some (c, n) /\ delete_batches ev s auto st bs = (c_st c, Some (c, n)).
Proof.
  intros ev s auto st bs WT CS WI F. apply consistent_inv in CS.
  destruct (delete_stmt ev Pst WT (fun ix q q' _ X => X) s st (concat bs) WI F CS) as (c & n & E & _). exists c, n. split; [exact E|].
  unfold run_delete in E. unfold delete_batches.
  destruct (batches_spec (fun c p => delete_row ev s c (tb_indexes (e_tb ev)) (key_rec (e_tb ev) p)) auto st (start ev s st) bs 0) as (X & _ & Z).
  rewrite E in X. pose proof (Z c n E). destruct (batches _ _ _ _ _ _) as [d r]; cbn in *; subst. reflexivity.
Qed.
(* outside a transaction every batch is committed on its own: the answer is the same, and a
   statement that succeeds has done everything *)
Theorem C56_update_autocommit_partial : forall ev s st bs,
  snd (update_batches ev s true st bs) = run_update ev s st (concat bs) /\
  forall c n, run_update ev s st (concat bs) = Some (c, n) -> fst (update_batches ev s true st bs) = c_st c.
Proof.
  intros ev s st bs. unfold run_update, update_batches.
  destruct (batches_spec (fun c p => update_row ev s [] c (key_rec (e_tb ev) p)) true st (start ev s st) bs 0) as (X & _ & Z).
  split; [exact X|exact Z].
Qed.
Print Assumptions C56_update_in_transaction.
Print Assumptions C56_update_autocommit_partial.
Print Assumptions C56_delete.

(* ---------------- C57: the number of rows ---------------- *)
Theorem C57_insert : forall ev s st rs c n,
  wf_table (e_tb ev) -> consistent ev st -> NoDup (map fst (st_rows st)) -> wf_stmt (e_tb ev) s -> wf_time ev s -> wf_insert ev s ->
  Forall (wf_row (e_tb ev)) rs -> run_insert ev s st rs = Some (c, n) ->
  Z.of_nat (length (st_rows (c_st c))) = Z.of_nat (length (st_rows st)) + c_incr c /\ NoDup (map fst (st_rows (c_st c))).
Proof. exact insert_count. Qed.
Theorem C57_delete : forall ev s st ps c n,
  NoDup (map fst (st_rows st)) -> run_delete ev s st ps = Some (c, n) ->
  Z.of_nat (length (st_rows (c_st c))) = Z.of_nat (length (st_rows st)) + c_incr c /\ NoDup (map fst (st_rows (c_st c))).
Proof. exact delete_count. Qed.
Print Assumptions C57_insert.
Print Assumptions C57_delete.
