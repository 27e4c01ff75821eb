(* C78: what a user may do follows from what was granted and revoked.
   C79: frontends follow the meta server.
   C80: who may grant, and change tables.
   C81: dropping a table takes the privileges on it away. *)
From Coq Require Import String List ZArith NArith Bool Lia.
From Verif Require Import Priv.Model Priv.Spec Priv.Access Priv.Rights Priv.Runs Priv.Index.
Import ListNotations.
Open Scope Z_scope.
Open Scope string_scope.
Open Scope list_scope.

(* ---- C78 ---- *)

(* READ and WRITE access, granted and revoked by the administrative requests: a statement other
   than UNION is let through exactly when the access that the history leaves permits it. *)
Theorem C78_access_follows_the_requests_partial : forall info_db u q0 h0 h d t n s,
  access_history u q0 h d t n -> meta_run h0 u = None -> d <> info_db -> s <> SUnion ->
  exists m, meta_run (h0 ++ OCreate u q0 :: h) u = Some m /\
    (allow_op (build_info info_db m) s d t n = true <->
     permits (is_super u q0 h) s (db_access u q0 h d) (tbl_access u q0 h t)).
Proof.
  intros info_db u q0 h0 h d t n s Hh H0 Hd Hs. unfold meta_run. rewrite fold_left_app.
  apply access_decides; auto.
Qed.
Print Assumptions C78_access_follows_the_requests_partial.

(* The rights of GRANT and REVOKE on a table that has been named in a GRANT to the user. *)
Theorem C78_rights_follow_the_requests_partial : forall info_db u q0 h0 h d t n s b,
  rights_history u q0 h d t -> meta_run h0 u = None -> named u q0 h t = true -> right_of s = Some b -> d <> -1 -> t <> -1 ->
  exists m, meta_run (h0 ++ OCreate u q0 :: h) u = Some m /\
    (allow_op (build_info info_db m) s d t n = true <->
     holds_global u q0 h b = true \/ holds_db u q0 h b d = true \/ holds_tbl u q0 h b t = true).
Proof.
  intros info_db u q0 h0 h d t n s b Hh H0 Hn Hs Hd Ht. unfold meta_run. rewrite fold_left_app.
  apply rights_decide; auto.
Qed.
Print Assumptions C78_rights_follow_the_requests_partial.

Definition new_user : user_priv := mkUser "secret" [] [] [] 0 None None None None.
Definition ask_db (d : Z) (r : option rw) : user_priv := mkUser "" [mkDb d r false None] [] [] 0 None None None None.
Definition ask_tbl (d t : Z) (n : string) (r : option rw) : user_priv := mkUser "" [] [mkTbl d t n r false None] [] 0 None None None None.

(* WRITE on a table, then revoked down to READ, then the database granted and taken back. *)
Definition a_history : list op :=
  [OAdd "ann" (ask_tbl 5 7 "orders" (Some WRITE)); OAdd "bob" (ask_db 5 (Some WRITE));
   ORemove "ann" (ask_tbl 5 7 "orders" (Some READ)); OAdd "ann" (ask_db 5 (Some WRITE)); ORemove "ann" (ask_db 5 None)].
Ltac history := cbn; repeat (apply Forall_cons || apply Forall_nil || split || intros || discriminate || intuition (congruence || lia || discriminate)).
Example C78_access_case :
  access_history "ann" new_user a_history 5 7 "orders" /\
  tbl_access "ann" new_user a_history 7 = Some READ /\ db_access "ann" new_user a_history 5 = None /\
  db_access "ann" new_user (firstn 4 a_history) 5 = Some WRITE.
Proof.
  split; [|repeat split]. unfold access_history, stays, once, by_access, no_rights. history.
Qed.

(* GRANT SELECT and INSERT on a table, INSERT revoked. *)
Definition b_history : list op :=
  [OAdd "ann" (priv_request (LTbl 5 7 "orders") 3); ORemove "ann" (priv_request (LTbl 5 7 "orders") 2);
   OAdd "ann" (priv_request (LDb 5) 8)].
Example C78_rights_case :
  rights_history "ann" new_user b_history 5 7 /\ named "ann" new_user b_history 7 = true /\
  holds_tbl "ann" new_user b_history 0 7 = true /\ holds_tbl "ann" new_user b_history 1 7 = false /\
  holds_db "ann" new_user b_history 3 5 = true.
Proof.
  split; [|repeat split]. unfold rights_history, stays, once, by_rights. history.
Qed.

(* GRANT INSERT ON db.*: the user cannot insert, but can read every table of the database. *)
Theorem C78_database_grant_refuted :
  let h := [OCreate "ann" new_user; OAdd "ann" (priv_request (LDb 5) 2)] in
  exists m, meta_run h "ann" = Some m /\
    holds_db "ann" new_user (tl h) 1 5 = true /\ allow_op (build_info 1 m) SInsert 5 7 "orders" = false /\
    holds_db "ann" new_user (tl h) 0 5 = false /\ allow_op (build_info 1 m) SSelect 5 7 "orders" = true.
Proof. cbn zeta. eexists. split; [reflexivity|]. repeat split. Qed.
Print Assumptions C78_database_grant_refuted.

(* GRANT SELECT ON db.* and REVOKE of the same: the user still reads the database. *)
Theorem C78_revoke_database_refuted :
  let h := [OCreate "ann" new_user; OAdd "ann" (priv_request (LDb 5) 1); ORemove "ann" (priv_request (LDb 5) 1)] in
  exists m, meta_run h "ann" = Some m /\
    (forall b, b = 0%N -> holds_db "ann" new_user (tl h) b 5 = false) /\ allow_op (build_info 1 m) SSelect 5 7 "orders" = true.
Proof. cbn zeta. eexists. split; [reflexivity|]. split; [intros b ->; reflexivity|reflexivity]. Qed.
Print Assumptions C78_revoke_database_refuted.

(* READ on one table opens the table of the same name in another database. *)
Theorem C78_same_name_refuted :
  let h := [OCreate "ann" new_user; OAdd "ann" (ask_tbl 5 7 "orders" (Some WRITE))] in
  exists m, meta_run h "ann" = Some m /\
    db_access "ann" new_user (tl h) 6 = None /\ tbl_access "ann" new_user (tl h) 8 = None /\
    allow_op (build_info 1 m) SDelete 6 8 "orders" = true.
Proof. cbn zeta. eexists. split; [reflexivity|]. repeat split. Qed.
Print Assumptions C78_same_name_refuted.

(* A reader of both tables cannot run a UNION over them. *)
Theorem C78_union_refuted :
  let h := [OCreate "ann" new_user; OAdd "ann" (ask_db 5 (Some READ))] in
  exists m, meta_run h "ann" = Some m /\
    permits (is_super "ann" new_user (tl h)) SUnion (db_access "ann" new_user (tl h) 5) (tbl_access "ann" new_user (tl h) 7) /\
    allow_op (build_info 1 m) SUnion 5 7 "orders" = false.
Proof.
  cbn zeta. eexists. split; [reflexivity|]. split; [|reflexivity].
  right; right; right. split; [right; reflexivity|]. left. discriminate.
Qed.
Print Assumptions C78_union_refuted.

(* GRANT SELECT ON *.*: nothing can be read, unless the table is also named in a GRANT. *)
Theorem C78_global_grant_refuted :
  let h := [OCreate "ann" new_user; OAdd "ann" (priv_request LGlobal 1)] in
  exists m, meta_run h "ann" = Some m /\
    holds_global "ann" new_user (tl h) 0 = true /\ allow_op (build_info 1 m) SSelect 5 7 "orders" = false.
Proof. cbn zeta. eexists. split; [reflexivity|]. repeat split. Qed.
Print Assumptions C78_global_grant_refuted.

(* One request that lowers WRITE to READ and also names rights: WRITE stays. *)
Theorem C78_revoke_write_and_acl_refuted :
  let q := mkUser "" [] [mkTbl 5 7 "orders" (Some READ) false (Some 2%N)] [] 0 None None None None in
  let h := [OCreate "ann" new_user; OAdd "ann" (ask_tbl 5 7 "orders" (Some WRITE)); ORemove "ann" q] in
  exists m, meta_run h "ann" = Some m /\
    tbl_access "ann" new_user (tl h) 7 = Some READ /\ allow_write (build_info 1 m) 5 7 "orders" = true.
Proof. cbn zeta. eexists. split; [reflexivity|]. repeat split. Qed.
Print Assumptions C78_revoke_write_and_acl_refuted.

(* ---- C79 ---- *)

(* Once a heartbeat has brought the state of the meta server, and whatever stale heartbeats,
   logins, queries and requests about other users come after it, a connection of u works with
   the record of u from its next refresh on. *)
Theorem C79_connections_follow_partial : forall scramble info_db u es1 names es2 k m c,
  stays u (ops_of (es1 ++ es2)) -> no_address_check u (ops_of (es1 ++ es2)) -> In u names ->
  Forall (fun o => ~ concerns u o) (ops_of es2) -> meta_run (ops_of (es1 ++ es2)) u = Some m ->
  nth_error (fe_conns (y_fe (sys_run scramble info_db (es1 ++ EHeartbeat 0 names :: es2 ++ [ERefresh k])))) k = Some c ->
  c_user c = u -> c_info c = build_info info_db m.
Proof. intros. eapply connections_follow; eauto. Qed.
Print Assumptions C79_connections_follow_partial.

(* From requests to queries: with the statement about access. *)
Theorem C79_queries_follow_the_requests_partial : forall scramble info_db u q0 h0 h es1 names es2 k c d t n s,
  ops_of (es1 ++ es2) = h0 ++ OCreate u q0 :: h -> meta_run h0 u = None -> stays u h0 -> access_history u q0 h d t n ->
  no_address_check u (ops_of (es1 ++ es2)) -> In u names -> Forall (fun o => ~ concerns u o) (ops_of es2) ->
  d <> info_db -> s <> SUnion ->
  nth_error (fe_conns (y_fe (sys_run scramble info_db (es1 ++ EHeartbeat 0 names :: es2 ++ [ERefresh k])))) k = Some c ->
  c_user c = u ->
  (allow_op (c_info c) s d t n = true <-> permits (is_super u q0 h) s (db_access u q0 h d) (tbl_access u q0 h t)).
Proof.
  intros scramble info_db u q0 h0 h es1 names es2 k c d t n s Ho H0 S0 Hh Na Hin Hc Hd Hs Hk Hu.
  destruct (C78_access_follows_the_requests_partial info_db u q0 h0 h d t n s Hh H0 Hd Hs) as [m [Hm Ha]].
  assert (E : c_info c = build_info info_db m).
  { eapply connections_follow; eauto; [|rewrite Ho; exact Hm]. rewrite Ho. unfold stays in *. intros Hi. apply in_app_or in Hi.
    destruct Hi as [Hi|[Hi|Hi]]; [auto|discriminate|]. destruct Hh as [St _]. auto. }
  rewrite E. exact Ha.
Qed.
Print Assumptions C79_queries_follow_the_requests_partial.

(* Logins use the current password. *)
Theorem C79_logins_follow_partial : forall scramble info_db u es1 names es2 m pass ip,
  stays u (ops_of (es1 ++ es2)) -> no_address_check u (ops_of (es1 ++ es2)) -> In u names ->
  Forall (fun o => ~ concerns u o) (ops_of es2) -> meta_run (ops_of (es1 ++ es2)) u = Some m ->
  match login scramble (y_fe (sys_run scramble info_db (es1 ++ EHeartbeat 0 names :: es2))) u pass ip with
  | Some c => scramble pass = scramble (up_password m) /\ c_info c = build_info info_db m
  | None => scramble pass <> scramble (up_password m)
  end.
Proof. intros. apply logins_follow; auto. Qed.
Print Assumptions C79_logins_follow_partial.

(* At every moment, heartbeats or not, a connection has the rights of one record u really had. *)
Theorem C79_never_more_than_was_granted_partial : forall scramble info_db u es c,
  stays u (ops_of es) -> no_address_check u (ops_of es) ->
  In c (fe_conns (y_fe (sys_run scramble info_db es))) -> c_user c = u ->
  exists h1 h2 m, ops_of es = h1 ++ h2 /\ meta_run h1 u = Some m /\ same_rights (c_info c) (build_info info_db m).
Proof. intros. eapply never_more; eauto. Qed.
Print Assumptions C79_never_more_than_was_granted_partial.

Definition plain (s : string) : string := s.
(* A connection made with READ; WRITE arrives later, after a stale heartbeat. *)
Definition a_run : list event :=
  [EOp (OCreate "ann" new_user); EOp (OAdd "ann" (ask_db 5 (Some READ))); EHeartbeat 0 ["ann"]; ELogin "ann" "secret" "10.0.0.1";
   EOp (OAdd "ann" (ask_db 5 (Some WRITE)))].
Example C79_case :
  let late := [EHeartbeat 1 ["ann"]; EOp (OCreate "bob" new_user)] in
  stays "ann" (ops_of (a_run ++ late)) /\ no_address_check "ann" (ops_of (a_run ++ late)) /\
  Forall (fun o => ~ concerns "ann" o) (ops_of late) /\
  match nth_error (fe_conns (y_fe (sys_run plain 1 (a_run ++ late)))) 0 with
  | Some c => allow_op (c_info c) SInsert 5 7 "orders" = false
  | None => False
  end /\
  match nth_error (fe_conns (y_fe (sys_run plain 1 (a_run ++ EHeartbeat 0 ["ann"] :: late ++ [ERefresh 0])))) 0 with
  | Some c => c_user c = "ann" /\ allow_op (c_info c) SInsert 5 7 "orders" = true
  | None => False
  end.
Proof.
  cbn zeta. split; [|split; [|split; [|split]]].
  - unfold stays. history.
  - unfold no_address_check. history.
  - history.
  - reflexivity.
  - split; reflexivity.
Qed.

(* A user who is dropped can still log in at every frontend that has heard of them. *)
Theorem C79_dropped_user_refuted :
  let es := [EOp (OCreate "ann" new_user); EHeartbeat 0 ["ann"]; EOp (ODrop "ann")] in
  meta_run (ops_of es) "ann" = None /\
  forall names k, login plain (y_fe (sys_run plain 1 (es ++ repeat (EHeartbeat 0 names) k))) "ann" "secret" "10.0.0.1" <> None.
Proof.
  cbn zeta. split; [reflexivity|]. intros names k. unfold sys_run. rewrite fold_left_app.
  set (y := fold_left (sys_step plain 1) [EOp (OCreate "ann" new_user); EHeartbeat 0 ["ann"]; EOp (ODrop "ann")] sys_init).
  assert (Keep : forall f (snap : meta) ns, (forall v, snap v = None) -> heartbeat 1 ns snap f = f).
  { intros f snap ns Hn. unfold heartbeat. induction ns as [|v ns IH]; cbn [fold_left]; auto. rewrite Hn. exact IH. }
  assert (E : forall j, fold_left (sys_step plain 1) (repeat (EHeartbeat 0 names) j) y = y).
  { induction j as [|j IH]; cbn [repeat fold_left]; auto. rewrite <- IH at 2. f_equal.
    unfold sys_step at 1. unfold y at 1. cbn [fold_left sys_step sys_init y_past nth_error]. rewrite Keep; [reflexivity|].
    intros v. cbn. unfold set_user. destruct (String.eqb v "ann"); reflexivity. }
  rewrite E. discriminate.
Qed.
Print Assumptions C79_dropped_user_refuted.

(* A user dropped and created again keeps the old password and privileges at the frontends. *)
Theorem C79_recreated_user_refuted :
  let strict := mkUser "other" [] [] [] 0 None None None None in
  let es := [EOp (OCreate "ann" new_user); EOp (OAdd "ann" (ask_db 5 (Some WRITE))); EHeartbeat 0 ["ann"];
             EOp (ODrop "ann"); EOp (OCreate "ann" strict); EHeartbeat 0 ["ann"]] in
  exists m, meta_run (ops_of es) "ann" = Some m /\ up_password m = "other" /\ up_dbs m = [] /\
  login plain (y_fe (sys_run plain 1 es)) "ann" "other" "10.0.0.1" = None /\
  match login plain (y_fe (sys_run plain 1 es)) "ann" "secret" "10.0.0.1" with
  | Some c => allow_op (c_info c) SDelete 5 7 "orders" = true
  | None => False
  end.
Proof. cbn zeta. eexists. split; [reflexivity|]. repeat split. Qed.
Print Assumptions C79_recreated_user_refuted.

(* ---- C80 ---- *)

(* Somebody to whom a table was named in a GRANT grants and revokes on it only what they hold,
   and only with the right to grant. *)
Theorem C80_grant_only_what_is_held_partial : forall info_db verify u q0 h0 h d t acl b m,
  rights_history u q0 h d t -> meta_run h0 u = None -> named u q0 h t = true ->
  meta_run (h0 ++ OCreate u q0 :: h) u = Some m ->
  grant_allowed verify (build_info info_db m) acl d t = true ->
  N.testbit acl b = true \/ right_of SGrant = Some b ->
  holds_global u q0 h b = true \/ holds_db u q0 h b d = true \/ holds_tbl u q0 h b t = true.
Proof.
  intros info_db verify u q0 h0 h d t acl b m Hh H0 Hn Hm Hg Hb. unfold meta_run in Hm. rewrite fold_left_app in Hm.
  eapply grants_held; eauto. destruct Hb as [Hb|Hb]; [auto|]. right. cbn in Hb. congruence.
Qed.
Print Assumptions C80_grant_only_what_is_held_partial.

(* DROP TABLE, ALTER TABLE and index changes, for the same users. *)
Theorem C80_table_changes_need_the_right_partial : forall info_db verify u q0 h0 h d t n s b,
  rights_history u q0 h d t -> meta_run h0 u = None -> named u q0 h t = true ->
  right_of s = Some b -> s <> SCreate -> d <> -1 -> t <> -1 ->
  exists m, meta_run (h0 ++ OCreate u q0 :: h) u = Some m /\
    (ddl_allowed verify (build_info info_db m) s d t n = true <->
     (verify = true -> get_bool (up_super m) = true \/ get_bool (up_ddl m) = true) /\
     (holds_global u q0 h b = true \/ holds_db u q0 h b d = true \/ holds_tbl u q0 h b t = true)).
Proof.
  intros info_db verify u q0 h0 h d t n s b Hh H0 Hn Hs Hc Hd Ht. unfold meta_run. rewrite fold_left_app.
  apply ddl_decides; auto.
Qed.
Print Assumptions C80_table_changes_need_the_right_partial.

(* With the default flags a user without any right may grant anything and drop any table. *)
Theorem C80_user_without_rights_refuted :
  let h := [OCreate "ann" new_user] in
  exists m, meta_run h "ann" = Some m /\
    (forall s t n, s <> SUnion -> allow_op (build_info 1 m) s 5 t n = false) /\
    (forall acl d t, grant_allowed false (build_info 1 m) acl d t = true) /\
    (forall d t n, ddl_allowed false (build_info 1 m) SDropTable d t n = true).
Proof.
  cbn zeta. eexists. split; [reflexivity|]. split; [|split; reflexivity]. intros s t n Hs. destruct s; reflexivity.
Qed.
Print Assumptions C80_user_without_rights_refuted.

(* GRANT ... WITH GRANT OPTION does not let the user grant. *)
Theorem C80_grant_option_refuted :
  let h := [OCreate "ann" new_user; OAdd "ann" (priv_request (LTbl 5 7 "orders") 1025)] in
  exists m, meta_run h "ann" = Some m /\
    holds_tbl "ann" new_user (tl h) 0 7 = true /\ holds_tbl "ann" new_user (tl h) 10 7 = true /\
    forall verify, grant_allowed verify (build_info 1 m) 1 5 7 = false.
Proof. cbn zeta. eexists. split; [reflexivity|]. repeat split. intros [|]; reflexivity. Qed.
Print Assumptions C80_grant_option_refuted.

(* The hypotheses of the two theorems are met by somebody who may grant: a super user. *)
Example C80_case :
  let q0 := mkUser "secret" [] [] [] 0 None None (Some true) None in
  let h := [OAdd "ann" (priv_request (LTbl 5 7 "orders") 1057)] in
  rights_history "ann" q0 h 5 7 /\ named "ann" q0 h 7 = true /\
  exists m, meta_run (OCreate "ann" q0 :: h) "ann" = Some m /\
    grant_allowed true (build_info 1 m) 1 5 7 = true /\ grant_allowed true (build_info 1 m) 2 5 7 = false /\
    ddl_allowed true (build_info 1 m) SDropTable 5 7 "orders" = true /\ ddl_allowed true (build_info 1 m) SAlter 5 7 "orders" = false.
Proof.
  cbn zeta. split; [|split; [reflexivity|]].
  - unfold rights_history, stays, once, by_rights. history.
  - eexists. split; [reflexivity|]. repeat split.
Qed.

(* ---- C81 ---- *)

(* The index of users by table lists exactly the users that have an entry for the table. *)
Theorem C81_index_is_exact_partial : forall d t n h u, Forall (tidy d t n) h ->
  (snd (indexed_run h) t u = true <-> listed (fst (indexed_run h)) u t).
Proof. intros. eapply index_exact; eauto. Qed.
Print Assumptions C81_index_is_exact_partial.

(* After DROP TABLE the table, and any other that takes its name, is closed to everybody whose
   access does not come from elsewhere. *)
Theorem C81_drop_table_takes_privileges_away_partial : forall info_db d t n h users u m s d' t',
  Forall (tidy d t n) h -> (forall v, meta_run h v <> None -> In v users) ->
  meta_run (h ++ drop_table_ops users (snd (indexed_run h)) d t n) u = Some m ->
  (t' = t \/ Forall (fun e => tp_tbl e <> t') (up_tbls m)) ->
  d' <> info_db -> Forall (fun e => dp_db e <> d') (up_dbs m) -> get_bool (up_super m) = false ->
  allow_op (build_info info_db m) s d' t' n = false.
Proof.
  intros info_db d t n h users u m s d' t' Hh Hall Hm.
  assert (E : fst (indexed_run h) = meta_run h) by (unfold indexed_run; rewrite run_fst; reflexivity).
  unfold meta_run in Hm. rewrite fold_left_app in Hm. fold (meta_run h) in Hm. rewrite <- E in Hm, Hall.
  intros. eapply drop_table_forgets; eauto.
Qed.
Print Assumptions C81_drop_table_takes_privileges_away_partial.

Definition c_history : list op :=
  [OCreate "ann" new_user; OCreate "bob" new_user; OAdd "ann" (ask_tbl 5 7 "orders" (Some WRITE)); OAdd "ann" (ask_tbl 5 8 "items" (Some READ));
   OAdd "bob" (ask_tbl 5 7 "orders" (Some READ)); ORemove "ann" (ask_tbl 5 7 "orders" (Some READ))].
Example C81_case :
  Forall (tidy 5 7 "orders") c_history /\ listed (meta_run c_history) "ann" 7 /\
  exists m, meta_run (c_history ++ drop_table_ops ["bob"; "ann"] (snd (indexed_run c_history)) 5 7 "orders") "ann" = Some m /\
    allow_op (build_info 1 m) SSelect 5 9 "orders" = false /\ allow_op (build_info 1 m) SSelect 5 8 "items" = true.
Proof.
  split; [|split].
  - unfold tidy, names_table. history; cbn; lia.
  - eexists. eexists. split; [reflexivity|]. split; [left; reflexivity|]. reflexivity.
  - eexists. split; [reflexivity|]. repeat split.
Qed.

(* GRANT, REVOKE, DROP TABLE: the entry is no longer in the index, it survives, and the user may
   read the table that is later created under the same name. *)
Theorem C81_revoked_right_refuted :
  let h := [OCreate "ann" new_user; OAdd "ann" (priv_request (LTbl 5 7 "orders") 1); ORemove "ann" (priv_request (LTbl 5 7 "orders") 1)] in
  listed (meta_run h) "ann" 7 /\ snd (indexed_run h) 7 "ann" = false /\
  exists m, meta_run (h ++ drop_table_ops ["ann"] (snd (indexed_run h)) 5 7 "orders") "ann" = Some m /\
    allow_op (build_info 1 m) SSelect 5 9 "orders" = true.
Proof.
  cbn zeta. split; [|split; [reflexivity|]].
  - eexists. eexists. split; [reflexivity|]. split; [left; reflexivity|]. reflexivity.
  - eexists. split; reflexivity.
Qed.
Print Assumptions C81_revoked_right_refuted.
