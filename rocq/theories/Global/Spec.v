(* What is asked of a table with global indexes.  The rows of a store, consistency of its
   indexes, clashes between rows and the meaning of INSERT in its four forms are those of
   theories/Dml/Spec.v; UPDATE of all chosen rows at once is defined here. *)
From Verif.Dml Require Export Spec.
From Verif.Global Require Import Model.
Local Open Scope Z_scope.

(* a row store without TTL whose indexes are all public *)
Definition good_table (tb : table) : Prop :=
  wf_table tb /\ tb_ttl tb = false /\ tb_cstore tb = false /\ NoDup (tb_indexes tb) /\
  forall ix, In ix (tb_indexes tb) -> ix_state ix = Public.
Definition every (ix : index) : bool := true.

(* the rows a DELETE or UPDATE is about *)
Definition chosen (s : stmt) (T : content) (ps : list (list cell)) (q : list cell) (o : rec) : Prop :=
  In q ps /\ (exists e, T q = Some (e, o)) /\ wanted s o = true.

(* the number of rows a statement is about *)
Definition how_many (s : stmt) (T : content) (ps : list (list cell)) (n : Z) : Prop :=
  exists l, NoDup l /\ (forall q, In q l <-> exists o, chosen s T ps q o) /\ n = Z.of_nat (length l).
(* the table after the DELETE *)
Definition deleted (s : stmt) (T : content) (ps : list (list cell)) (T' : content) : Prop :=
  forall q e r, T' q = Some (e, r) <-> T q = Some (e, r) /\ ~ chosen s T ps q r.
(* the table after the UPDATE: every chosen row is replaced by what SET makes of it *)
Definition updated (tb : table) (s : stmt) (T : content) (ps : list (list cell)) (T' : content) : Prop :=
  forall q e r, T' q = Some (e, r) <->
    (exists q0 o, chosen s T ps q0 o /\ r = set_row s o [] /\ pk_of tb r = q /\ e = 0) \/
    (T q = Some (e, r) /\ ~ chosen s T ps q r).
(* two rows of that table clash *)
Definition update_clash (tb : table) (s : stmt) (T : content) (ps : list (list cell)) : Prop :=
  exists q o q' o', chosen s T ps q o /\ q' <> q /\
    ((chosen s T ps q' o' /\ clash tb every (set_row s o []) (set_row s o' [])) \/
     ((exists e', T q' = Some (e', o')) /\ ~ chosen s T ps q' o' /\ clash tb every (set_row s o []) o')).

(* statements, one after the other; one that fails has no effect *)
Inductive gstmt :=
| GInsert (rs : list rec) | GIgnore (rs : list rec) | GReplace (rs : list rec) | GOnDup (s : stmt) (rs : list rec)
| GUpdate (s : stmt) (ps : list (list cell)) | GDelete (s : stmt) (ps : list (list cell)).
Definition wf_gstmt (tb : table) (g : gstmt) : Prop :=
  match g with
  | GInsert rs | GIgnore rs | GReplace rs => Forall (wf_row tb) rs
  | GOnDup s rs => Forall (wf_row tb) rs /\ wf_stmt tb s
  | GUpdate s ps => Forall (wf_key tb) ps /\ NoDup ps /\ wf_stmt tb s /\ s_node s = UpdateNode /\ s_updates s <> []
  | GDelete s ps => Forall (wf_key tb) ps /\ NoDup ps /\ s_node s = DeleteNode
  end.
Definition gstep (tb : table) (st : store) (g : gstmt) : store :=
  match g with
  | GInsert rs => match run_basic tb st rs with Some (st', _) => st' | None => st end
  | GIgnore rs => fst (run_ignore tb st rs)
  | GReplace rs => match run_replace tb st rs with Some (st', _) => st' | None => st end
  | GOnDup s rs => match run_on_dup tb s st rs with GDone st' _ => st' | _ => st end
  | GUpdate s ps => match run_gupdate tb s st ps with Some (st', _) => st' | None => st end
  | GDelete s ps => fst (run_gdelete tb s st ps)
  end.
Definition gview (tb : table) (res : option (store * Z)) : outcome :=
  match res with None => Fails | Some (st, n) => Does (rows (genv tb) st) n end.

(* the INSERT a client sends, as theories/Dml/Spec.v has it *)
Definition ins_stmt (replace ignore : bool) : stmt :=
  mkStmt InsertNode replace ignore [] [] (fun _ => true) false 0 false false.
(* an INSERT .. ON DUPLICATE KEY UPDATE *)
Definition dup_stmt (s : stmt) : Prop :=
  s_node s = InsertNode /\ s_replace s = false /\ s_ignore s = false /\ s_updates s <> [] /\ s_ddl s = false /\ s_keep s = false.
(* no two rows of a statement clash *)
Definition no_mutual_clash (tb : table) (rs : list rec) : Prop :=
  forall i j ri rj, nth_error rs i = Some ri -> nth_error rs j = Some rj -> i <> j -> ~ clash tb every ri rj.
