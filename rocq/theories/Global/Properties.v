(* C71 - C73: INSERT, REPLACE, UPDATE and DELETE of a table with global indexes *)
From Verif.Dml Require Import Base Inv Rows.
From Verif.Global Require Import Model Spec Core Stmts Ignore UpdDel Replace OnDup.
Local Open Scope Z_scope.

(* ---------------- C71: the table and its global indexes agree ---------------- *)
Lemma step_good tb st g : good_table tb -> wf_gstmt tb g -> good_store tb st -> good_store tb (gstep tb st g).
Proof.
  intros GT W G. destruct g as [rs|rs|rs|s rs|s ps|s ps]; cbn [gstep wf_gstmt] in *.
  - destruct (run_basic tb st rs) as [[st' n]|] eqn:E; [|exact G]. exact (run_basic_good tb GT st rs st' n G W E).
  - exact (proj1 (ignore_facts tb GT st G rs W)).
  - destruct (replace_facts tb GT st rs G W) as (st' & n & -> & G' & _). exact G'.
  - destruct W as [W WS]. destruct (run_on_dup tb s st rs) as [| |st' n] eqn:E; try exact G. exact (on_dup_good tb GT s WS st rs st' n G W E).
  - destruct W as (W1 & W2 & W3 & W4 & W5). pose proof (update_facts tb GT s st ps G W1 W2 W3 W5 W4) as X. destruct (run_gupdate tb s st ps) as [[st' n]|]; [tauto|exact G].
  - destruct W as (W1 & W2 & W3). exact (proj1 (delete_facts tb GT s st ps G W1 W3)).
Qed.
Theorem C71_indexes_agree : forall tb gs st,
  good_table tb -> consistent (genv tb) st -> Forall (wf_gstmt tb) gs -> consistent (genv tb) (fold_left (gstep tb) gs st).
Proof.
  intros tb gs st GT C F. apply (consistent_good tb GT) in C. apply (consistent_good tb GT). revert st C.
  induction F as [|g gs W F IH]; intros st G; cbn [fold_left]; [exact G|]. apply IH. apply step_good; assumption.
Qed.
Print Assumptions C71_indexes_agree.
Theorem C71_unique : forall tb gs ix,
  good_table tb -> Forall (wf_gstmt tb) gs -> In ix (tb_indexes tb) -> ix_uniq ix = true ->
  no_duplicates (genv tb) (fold_left (gstep tb) gs (mkSt [] [])) ix.
Proof.
  intros tb gs ix GT F Hix U.
  assert (C : consistent (genv tb) (mkSt [] [])).
  { split; [intros q e o X; discriminate X|]. intros ix' _. split; [intros _ cs rest e X; discriminate X|intros _ q e o _ X; discriminate X]. }
  pose proof (C71_indexes_agree tb gs _ GT C F) as X. apply (consistent_good tb GT) in X. intros q e o q' e' o' A B E.
  apply (stored_apart tb GT _ _ _ _ _ _ _ X A B). right. exists ix. auto.
Qed.
Print Assumptions C71_unique.
(* looking a value up in a global index finds exactly the rows that have it *)
Theorem C71_index_lookup : forall tb gs st ix cs q e o,
  good_table tb -> consistent (genv tb) st -> Forall (wf_gstmt tb) gs -> In ix (tb_indexes tb) ->
  rows (genv tb) (fold_left (gstep tb) gs st) q = Some (e, o) ->
  (proj o (ix_fields ix) = cs <-> exists rest, holds (fold_left (gstep tb) gs st) ix cs rest e /\ entry_pk tb ix cs rest = q).
Proof.
  intros tb gs st ix cs q e o GT C F Hix Ro. pose proof (C71_indexes_agree tb gs st GT C F) as X. set (st' := fold_left (gstep tb) gs st) in *. clearbody st'.
  pose proof (proj1 X) as K. apply (consistent_good tb GT) in X. destruct (proj2 X ix Hix) as [Sn Cp]. split.
  - intros <-. exists (proj o (ix_rest ix)). split; [exact (Cp q e o Logic.I Ro)|]. apply (entry_live (genv tb) (WT tb GT) st' ix q e o K Hix Ro).
  - intros (rest & Hd & Ep). destruct (Sn cs rest e Hd) as (o' & R' & Pc & _).
    + destruct (rows_info (genv tb) _ _ _ _ Ro) as (_ & Y & _). exact Y.
    + reflexivity.
    + cbn [genv e_tb] in R'. rewrite Ep, Ro in R'. injection R' as <-. exact Pc.
Qed.
Print Assumptions C71_index_lookup.

(* ---------------- C72: INSERT, REPLACE, UPDATE, DELETE ---------------- *)
Theorem C72_insert : forall tb st rs,
  good_table tb -> consistent (genv tb) st -> Forall (wf_row tb) rs ->
  all_rows (insert_spec (genv tb) (ins_stmt false false) 0) (rows (genv tb) st) rs (gview tb (run_basic tb st rs)).
Proof. intros tb st rs GT C W. apply (consistent_good tb GT) in C. exact (run_basic_spec tb GT st rs C W). Qed.
Theorem C72_replace : forall tb st rs,
  good_table tb -> consistent (genv tb) st -> Forall (wf_row tb) rs ->
  exists st' n m, run_replace tb st rs = Some (st', n) /\
    all_rows (insert_spec (genv tb) (ins_stmt true false) 0) (rows (genv tb) st) rs (Does (rows (genv tb) st') m) /\
    (no_mutual_clash tb rs -> n = m).
Proof. intros tb st rs GT C W. apply (consistent_good tb GT) in C. exact (run_replace_sql tb GT st rs C W). Qed.
Theorem C72_update : forall tb s st ps,
  good_table tb -> consistent (genv tb) st -> wf_gstmt tb (GUpdate s ps) ->
  match run_gupdate tb s st ps with
  | Some (st', n) => ~ update_clash tb s (rows (genv tb) st) ps /\ updated tb s (rows (genv tb) st) ps (rows (genv tb) st') /\
                     how_many s (rows (genv tb) st) ps n
  | None => update_clash tb s (rows (genv tb) st) ps
  end.
Proof.
  intros tb s st ps GT C (W1 & W2 & W3 & W4 & W5). apply (consistent_good tb GT) in C. pose proof (update_facts tb GT s st ps C W1 W2 W3 W5 W4) as X.
  destruct (run_gupdate tb s st ps) as [[st' n]|]; tauto.
Qed.
Theorem C72_delete : forall tb s st ps,
  good_table tb -> consistent (genv tb) st -> wf_gstmt tb (GDelete s ps) ->
  deleted s (rows (genv tb) st) ps (rows (genv tb) (fst (run_gdelete tb s st ps))) /\
  how_many s (rows (genv tb) st) ps (snd (run_gdelete tb s st ps)).
Proof. intros tb s st ps GT C (W1 & W2 & W3). apply (consistent_good tb GT) in C. exact (proj2 (delete_facts tb GT s st ps C W1 W3)). Qed.
Print Assumptions C72_insert.
Print Assumptions C72_replace.
Print Assumptions C72_update.
Print Assumptions C72_delete.

(* ---------------- C73: INSERT IGNORE and ON DUPLICATE KEY UPDATE ---------------- *)
Theorem C73_ignore_rows : forall tb st rs q e r,
  good_table tb -> consistent (genv tb) st -> Forall (wf_row tb) rs ->
  (rows (genv tb) (fst (run_ignore tb st rs)) q = Some (e, r) <->
   rows (genv tb) st q = Some (e, r) \/
   (q = pk_of tb r /\ e = 0 /\ (exists a b, rs = a ++ r :: b /\ forall o, In o a -> ~ clash tb every r o) /\
    forall q' e' o, rows (genv tb) st q' = Some (e', o) -> ~ clash tb every r o)).
Proof. intros tb st rs q e r GT C W. apply (consistent_good tb GT) in C. exact (ignore_exact tb GT st C rs W q e r). Qed.
Theorem C73_ignore : forall tb st rs,
  good_table tb -> consistent (genv tb) st -> Forall (wf_row tb) rs -> no_mutual_clash tb rs ->
  all_rows (insert_spec (genv tb) (ins_stmt false true) 0) (rows (genv tb) st) rs (gview tb (Some (run_ignore tb st rs))).
Proof. intros tb st rs GT C W N. apply (consistent_good tb GT) in C. exact (run_ignore_sql tb GT st rs C W N). Qed.
(* one row *)
Theorem C73_on_duplicate_partial : forall tb s st r,
  good_table tb -> consistent (genv tb) st -> wf_stmt tb s -> dup_stmt s -> wf_row tb r ->
  match run_on_dup tb s st [r] with
  | GDone st' n => exists m, insert_spec (genv tb) s 0 (rows (genv tb) st) r (Does (rows (genv tb) st') m) /\
      ((forall q e o q' e' o', rows (genv tb) st q = Some (e, o) -> clash tb every r o ->
                               rows (genv tb) st q' = Some (e', o') -> clash tb every r o' -> q = q') -> n = m)
  | GFail => insert_spec (genv tb) s 0 (rows (genv tb) st) r Fails
  | GCrash => False
  end.
Proof. intros tb s st r GT C WS DS W. apply (consistent_good tb GT) in C. exact (on_dup_one tb GT s WS st r C W DS). Qed.
Print Assumptions C73_ignore_rows.
Print Assumptions C73_ignore.
Print Assumptions C73_on_duplicate_partial.

(* ---------------- a table: id, a, b, c; UNIQUE (a), UNIQUE (b), KEY (c), all global ---------------- *)
Definition ia := mkIx 1 true [1%nat] [0%nat] Public false.
Definition ib := mkIx 2 true [2%nat] [0%nat] Public false.
Definition ic := mkIx 3 false [3%nat] [0%nat] Public false.
Definition tab : table := mkTb 4 [0%nat] (fun _ => None) [ia; ib; ic] false false.
Definition v (n : Z) : cell := Some [n].
Definition row (i a b c : Z) : rec := [v i; v a; v b; v c].
(* SET c = VALUES(c), SET c = c + 1 *)
Definition take_c : assign := mkAs 3 (fun _ r => match fget r 3 with Some c => Some c | None => v 0 end).
Definition more_c : assign := mkAs 3 (fun o _ => match fget o 3 with Some [n] => Some [n + 1] | _ => v 0 end).
Definition dup (a : assign) : stmt := mkStmt InsertNode false false [a] [0; 1; 2; 3]%nat (fun _ => true) false 0 false false.
Definition change (a : assign) : stmt := mkStmt UpdateNode false false [a] [0; 1; 2; 3]%nat (fun _ => true) false 0 false false.
Definition drop : stmt := mkStmt DeleteNode false false [] [] (fun _ => true) false 0 false false.
Lemma good_tab : good_table tab.
Proof.
  split; [|split; [reflexivity|]; split; [reflexivity|]; split].
  - split; [constructor; [intros []|constructor]|]. split; [repeat constructor|]. split; [|split].
    + intros ix [<-|[<-|[<-|[]]]]; cbn; (split; [repeat constructor|]; split; [auto|]; intros f [<-|[]]; right; left; reflexivity).
    + intros ix ix' [<-|[<-|[<-|[]]]] [<-|[<-|[<-|[]]]]; cbn; intros X; try reflexivity; discriminate X.
    + discriminate.
  - repeat constructor; cbn; intros X; decompose [or] X; try discriminate; assumption.
  - intros ix [<-|[<-|[<-|[]]]]; reflexivity.
Qed.
Lemma wf_rows l : Forall (wf_row tab) (map (fun '(i, a, b, c) => row i a b c) l).
Proof.
  apply Forall_forall. intros r X. apply in_map_iff in X. destruct X as ([[[i a] b] c] & <- & _). split; [reflexivity|]. split; [reflexivity|]. intros f Hf. destruct f as [|[|[|[|f]]]]; cbn; try discriminate.
  intros _. cbn in Hf. lia.
Qed.
Lemma wf_dup f : (f = take_c \/ f = more_c) -> wf_stmt tab (dup f).
Proof.
  intros [->| ->] a [<-|[]]; (split; [cbn; lia|]); intros o w X; exfalso; cbn in X.
  - destruct (fget w 3); discriminate.
  - destruct (fget o 3) as [[|n [|]]|]; discriminate.
Qed.
Definition st0 : store := gstep tab (mkSt [] []) (GInsert [row 1 10 20 5; row 2 11 21 5; row 3 12 22 6]).
Definition hist : list gstmt :=
  [ GInsert [row 1 10 20 5; row 2 11 21 5; row 3 12 22 6];
    GIgnore [row 4 13 23 7; row 9 10 99 0];
    GReplace [row 5 11 22 8];                     (* takes the places of 2 and 3 *)
    GOnDup (dup more_c) [row 7 10 70 0];           (* 1 *)
    GUpdate (change (mkAs 0 (fun o _ => match fget o 0 with Some [n] => Some [n + 100] | _ => v 0 end))) [[v 1]; [v 4]];
    GDelete drop [[v 104]] ].
Lemma wf_hist : Forall (wf_gstmt tab) hist.
Proof.
  apply Forall_cons; [exact (wf_rows [(1, 10, 20, 5); (2, 11, 21, 5); (3, 12, 22, 6)])|].
  apply Forall_cons; [exact (wf_rows [(4, 13, 23, 7); (9, 10, 99, 0)])|].
  apply Forall_cons; [exact (wf_rows [(5, 11, 22, 8)])|].
  apply Forall_cons; [split; [exact (wf_rows [(7, 10, 70, 0)])|apply wf_dup; auto]|].
  apply Forall_cons.
  - split; [apply Forall_cons; [split; reflexivity|]; apply Forall_cons; [split; reflexivity|constructor]|].
    split; [constructor; [intros [X|[]]; discriminate X|constructor; [intros []|constructor]]|].
    split; [|split; [reflexivity|discriminate]]. intros a [<-|[]]. split; [cbn; lia|]. intros o w X. exfalso. cbn in X. destruct (fget o 0) as [[|n [|]]|]; discriminate X.
  - apply Forall_cons; [|constructor]. split; [apply Forall_cons; [split; reflexivity|constructor]|]. split; [constructor; [intros []|constructor]|reflexivity].
Qed.
Lemma empty_consistent : consistent (genv tab) (mkSt [] []).
Proof. split; [intros q e o X; discriminate X|]. intros ix' _. split; [intros _ cs rest e X; discriminate X|intros _ q e o _ X; discriminate X]. Qed.
Lemma st0_consistent : consistent (genv tab) st0.
Proof.
  change st0 with (fold_left (gstep tab) [GInsert [row 1 10 20 5; row 2 11 21 5; row 3 12 22 6]] (mkSt [] [])).
  apply C71_indexes_agree; [exact good_tab|exact empty_consistent|]. pose proof wf_hist as W. inversion W as [|? ? W1 W2]; subst. constructor; [exact W1|constructor].
Qed.
Definition here (st : store) (i : Z) : option (Z * rec) := rows (genv tab) st [v i].
Example C71_ex :
  consistent (genv tab) (fold_left (gstep tab) hist (mkSt [] [])) /\
  map (here (fold_left (gstep tab) hist (mkSt [] []))) [1; 2; 3; 4; 5; 7; 9; 101; 104] =
    [None; None; None; None; Some (0, row 5 11 22 8); None; None; Some (0, row 101 10 20 6); None].
Proof. split; [exact (C71_indexes_agree tab hist _ good_tab empty_consistent wf_hist)|vm_compute; reflexivity]. Qed.
Example C72_ex :
  run_basic tab st0 [row 4 40 41 0; row 5 50 41 0] = None /\ run_basic tab st0 [row 4 40 21 0] = None /\
  option_map snd (run_basic tab st0 [row 4 40 41 0; row 5 50 51 0]) = Some 2 /\
  option_map snd (run_replace tab st0 [row 4 11 22 0; row 5 50 20 0]) = Some 5 /\
  option_map snd (run_gupdate tab (change take_c) st0 [[v 1]; [v 2]; [v 8]]) = Some 2 /\
  run_gupdate tab (change (mkAs 1 (fun _ _ => v 7))) st0 [[v 1]; [v 2]] = None /\
  option_map snd (run_gupdate tab (change (mkAs 1 (fun o _ => match fget o 0 with Some [n] => Some [12 - n] | _ => v 0 end))) st0 [[v 2]; [v 1]]) = Some 2 /\
  snd (run_gdelete tab drop st0 [[v 1]; [v 3]; [v 8]]) = 2.
Proof. vm_compute. repeat split. Qed.
Example C73_ex :
  snd (run_ignore tab st0 [row 4 10 41 0; row 5 50 51 0]) = 1 /\
  (exists st', run_on_dup tab (dup more_c) st0 [row 1 50 60 0] = GDone st' 2 /\ here st' 1 = Some (0, row 1 10 20 6)) /\
  (exists st', run_on_dup tab (dup more_c) st0 [row 4 50 60 0] = GDone st' 1 /\ here st' 4 = Some (0, row 4 50 60 0)) /\
  run_on_dup tab (dup (mkAs 1 (fun _ _ => v 11))) st0 [row 1 50 60 0] = GFail.
Proof. split; [vm_compute; reflexivity|]. split; [eexists; split; vm_compute; reflexivity|]. split; [eexists; split; vm_compute; reflexivity|]. vm_compute. reflexivity. Qed.

(* ---------------- what is refuted ---------------- *)
(* no row of the store clashes with r *)
Definition nothing_like (st : store) (r : rec) : Prop := forall q e o, rows (genv tab) st q = Some (e, o) -> ~ clash tab every r o.
Lemma nothing_by_list st r (l : list (list cell)) :
  l = map fst (st_rows st) -> forallb (fun q => match rows (genv tab) st q with Some (_, o) => negb (clashb tab r o) | None => true end) l = true -> nothing_like st r.
Proof.
  intros -> F q e o E C. rewrite forallb_forall in F. pose proof (F q (R_dom tab good_tab st q e o E)) as X. rewrite E in X.
  apply (clashb_iff tab r o) in C. rewrite C in X. discriminate X.
Qed.
(* INSERT IGNORE: the second row clashes with nothing in the table, only with the first row of
   the statement, which is itself not inserted *)
Theorem C73_ignore_refuted : exists st rs r,
  consistent (genv tab) st /\ Forall (wf_row tab) rs /\ In r rs /\
  nothing_like st r /\ nothing_like (fst (run_ignore tab st rs)) r /\ snd (run_ignore tab st rs) = 0.
Proof.
  exists st0, [row 1 50 60 0; row 4 50 70 0], (row 4 50 70 0). split; [exact st0_consistent|]. split; [exact (wf_rows [(1, 50, 60, 0); (4, 50, 70, 0)])|].
  split; [right; left; reflexivity|]. split; [eapply nothing_by_list; [reflexivity|vm_compute; reflexivity]|]. split; [eapply nothing_by_list; [reflexivity|vm_compute; reflexivity]|]. vm_compute. reflexivity.
Qed.
(* ON DUPLICATE KEY UPDATE: two rows of the statement have the keys of one stored row in two
   UNIQUE indexes *)
Theorem C73_on_duplicate_refuted_crash : exists s st rs,
  wf_stmt tab s /\ dup_stmt s /\ consistent (genv tab) st /\ Forall (wf_row tab) rs /\ no_mutual_clash tab rs /\
  run_on_dup tab s st rs = GCrash.
Proof.
  exists (dup more_c), st0, [row 4 10 30 0; row 5 40 20 0]. split; [apply wf_dup; auto|]. split; [repeat split; discriminate|]. split; [exact st0_consistent|].
  split; [exact (wf_rows [(4, 10, 30, 0); (5, 40, 20, 0)])|]. split; [|vm_compute; reflexivity].
  apply no_mutual_apart. apply (batch_apart tab good_tab). vm_compute. reflexivity.
Qed.
(* a row is lost: it is not in the table, nothing in the table clashes with it, the keys of no
   row changed and the statement succeeded *)
Theorem C73_on_duplicate_refuted_lost : exists s st rs r st' n,
  wf_stmt tab s /\ dup_stmt s /\ (forall a, In a (s_updates s) -> a_field a = 3%nat) /\ consistent (genv tab) st /\ Forall (wf_row tab) rs /\
  In r rs /\ run_on_dup tab s st rs = GDone st' n /\ nothing_like st r /\ nothing_like st' r.
Proof.
  exists (dup more_c), st0, [row 4 10 30 0; row 5 40 30 0], (row 5 40 30 0). eexists. eexists. split; [apply wf_dup; auto|]. split; [repeat split; discriminate|]. split; [intros a [<-|[]]; reflexivity|].
  split; [exact st0_consistent|]. split; [exact (wf_rows [(4, 10, 30, 0); (5, 40, 30, 0)])|]. split; [right; left; reflexivity|].
  split; [vm_compute; reflexivity|]. split; (eapply nothing_by_list; [reflexivity|vm_compute; reflexivity]).
Qed.
(* the rows are taken key by key: the last row of the statement does not win *)
Theorem C73_on_duplicate_refuted_order : exists s st r r' st1 st2 st3 n1 n2 n3 q,
  wf_stmt tab s /\ dup_stmt s /\ consistent (genv tab) st /\ Forall (wf_row tab) [r; r'] /\ no_mutual_clash tab [r; r'] /\
  run_on_dup tab s st [r] = GDone st1 n1 /\ run_on_dup tab s st1 [r'] = GDone st2 n2 /\
  run_on_dup tab s st [r; r'] = GDone st3 n3 /\ rows (genv tab) st2 q <> rows (genv tab) st3 q.
Proof.
  exists (dup take_c), st0, (row 4 40 20 77), (row 1 50 60 88). do 6 eexists. exists [v 1]. split; [apply wf_dup; auto|]. split; [repeat split; discriminate|]. split; [exact st0_consistent|].
  split; [exact (wf_rows [(4, 40, 20, 77); (1, 50, 60, 88)])|].
  split; [apply no_mutual_apart; apply (batch_apart tab good_tab); vm_compute; reflexivity|].
  split; [vm_compute; reflexivity|]. split; [vm_compute; reflexivity|]. split; [vm_compute; reflexivity|]. vm_compute. discriminate.
Qed.
(* the number of affected rows: REPLACE of two rows that clash, ON DUPLICATE KEY UPDATE by a row
   that clashes with two *)
Theorem C72_replace_count_refuted : exists st r r' st1 st2 st3 n1 n2 n3,
  consistent (genv tab) st /\ Forall (wf_row tab) [r; r'] /\
  run_replace tab st [r] = Some (st1, n1) /\ run_replace tab st1 [r'] = Some (st2, n2) /\
  run_replace tab st [r; r'] = Some (st3, n3) /\ n3 <> n1 + n2.
Proof.
  exists st0, (row 4 10 40 0), (row 5 10 50 0). do 6 eexists. split; [exact st0_consistent|]. split; [exact (wf_rows [(4, 10, 40, 0); (5, 10, 50, 0)])|].
  split; [vm_compute; reflexivity|]. split; [vm_compute; reflexivity|]. split; [vm_compute; reflexivity|]. vm_compute. discriminate.
Qed.
Theorem C73_on_duplicate_refuted_count : exists s st r st' n,
  wf_stmt tab s /\ dup_stmt s /\ consistent (genv tab) st /\ wf_row tab r /\
  run_on_dup tab s st [r] = GDone st' n /\ n = 4.
Proof.
  exists (dup more_c), st0, (row 1 11 60 0). do 2 eexists. split; [apply wf_dup; auto|]. split; [repeat split; discriminate|]. split; [exact st0_consistent|].
  split; [exact (Forall_inv (wf_rows [(1, 11, 60, 0)]))|]. split; vm_compute; reflexivity.
Qed.
Print Assumptions C73_ignore_refuted.
Print Assumptions C73_on_duplicate_refuted_crash.
Print Assumptions C73_on_duplicate_refuted_lost.
Print Assumptions C73_on_duplicate_refuted_order.
Print Assumptions C72_replace_count_refuted.
Print Assumptions C73_on_duplicate_refuted_count.
