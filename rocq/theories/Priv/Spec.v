(* What a user may do, read off the history of administrative requests: independent of the lists
   the meta server keeps and the maps a frontend builds from them. *)
From Coq Require Import String List ZArith NArith Bool.
From Verif Require Import Priv.Model.
Import ListNotations.
Open Scope Z_scope.

(* ---- READ and WRITE access ---- *)

(* Granting access: it never takes WRITE away unless the request forces it. *)
Definition granted (force : bool) (r : rw) (old : option rw) : option rw :=
  match old, force with
  | Some WRITE, false => Some WRITE
  | _, _ => Some r
  end.

(* Revoking down to READ leaves a writer with READ; anything else takes the access away. *)
Definition revoked (r : option rw) (old : option rw) : option rw :=
  match old, r with
  | Some WRITE, Some READ => Some READ
  | _, _ => None
  end.

Definition grant_db (d : Z) (es : list db_priv) (a : option rw) : option rw :=
  fold_left (fun a e => if dp_db e =? d then match dp_rw e with Some r => granted (dp_force e) r a | None => a end else a) es a.
Definition revoke_db (d : Z) (es : list db_priv) (a : option rw) : option rw :=
  fold_left (fun a e => if dp_db e =? d then revoked (dp_rw e) a else a) es a.
Definition grant_tbl (t : Z) (es : list tbl_priv) (a : option rw) : option rw :=
  fold_left (fun a e => if tp_tbl e =? t then match tp_rw e with Some r => granted (tp_force e) r a | None => a end else a) es a.
Definition revoke_tbl (t : Z) (es : list tbl_priv) (a : option rw) : option rw :=
  fold_left (fun a e => if tp_tbl e =? t then revoked (tp_rw e) a else a) es a.

(* The access of user u on database d, and on table t, after one more request. *)
Definition db_after (u : string) (d : Z) (a : option rw) (o : op) : option rw :=
  match o with
  | OAdd v q => if String.eqb v u then grant_db d (up_dbs q) a else a
  | ORemove v q => if String.eqb v u then revoke_db d (up_dbs q) a else a
  | OInvalid ok _ => if ok d then a else None
  | _ => a
  end.
Definition tbl_after (u : string) (t : Z) (a : option rw) (o : op) : option rw :=
  match o with
  | OAdd v q => if String.eqb v u then grant_tbl t (up_tbls q) a else a
  | ORemove v q => if String.eqb v u then revoke_tbl t (up_tbls q) a else a
  | OInvalid _ ok => if ok t then a else None
  | _ => a
  end.
Definition super_after (u : string) (b : bool) (o : op) : bool :=
  match o with
  | OAdd v q => if String.eqb v u then match up_super q with Some x => x | None => b end else b
  | _ => b
  end.

(* The user is created by q0 and h follows. *)
Definition db_access (u : string) (q0 : user_priv) (h : list op) (d : Z) : option rw :=
  fold_left (db_after u d) h (grant_db d (up_dbs q0) None).
Definition tbl_access (u : string) (q0 : user_priv) (h : list op) (t : Z) : option rw :=
  fold_left (tbl_after u t) h (grant_tbl t (up_tbls q0) None).
Definition is_super (u : string) (q0 : user_priv) (h : list op) : bool :=
  fold_left (super_after u) h (match up_super q0 with Some b => b | None => false end).

(* Statements that only read. *)
Definition reads (s : stmt) : Prop := s = SSelect \/ s = SUnion.

(* A user may do what their access to the database or to the table allows. *)
Definition permits (super : bool) (s : stmt) (db tbl : option rw) : Prop :=
  super = true \/ db = Some WRITE \/ tbl = Some WRITE \/ (reads s /\ (db <> None \/ tbl <> None)).

(* ---- the rights of GRANT and REVOKE ---- *)

(* The number of the right a statement needs, include/sqlparser/misc.h:134-165. *)
Definition right_of (s : stmt) : option N :=
  match s with
  | SSelect | SUnion => Some 0%N
  | SInsert => Some 1%N
  | SUpdate => Some 2%N
  | SDelete => Some 3%N
  | SCreate => Some 4%N
  | SDropTable => Some 5%N
  | SLoad => Some 9%N
  | SGrant => Some 10%N
  | SIndex => Some 12%N
  | SAlter => Some 13%N
  | SUserOp => Some 25%N
  | SNone => None
  end.

Definition names_right (b : N) (a : option N) : bool := match a with Some a => N.testbit a b | None => false end.

(* Whether right b is held at a level, after the entries of a request for that level. *)
Definition hold_global (b : N) (a : option N) (h : bool) : bool := names_right b a || h.
Definition lose_global (b : N) (a : option N) (h : bool) : bool := h && negb (names_right b a).
Definition hold_db (b : N) (d : Z) (es : list db_priv) (h : bool) : bool :=
  h || existsb (fun e => (dp_db e =? d) && names_right b (dp_acl e)) es.
Definition lose_db (b : N) (d : Z) (es : list db_priv) (h : bool) : bool :=
  h && negb (existsb (fun e => (dp_db e =? d) && names_right b (dp_acl e)) es).
Definition hold_tbl (b : N) (t : Z) (es : list tbl_priv) (h : bool) : bool :=
  h || existsb (fun e => (tp_tbl e =? t) && names_right b (tp_acl e)) es.
Definition lose_tbl (b : N) (t : Z) (es : list tbl_priv) (h : bool) : bool :=
  h && negb (existsb (fun e => (tp_tbl e =? t) && names_right b (tp_acl e)) es).

Definition global_after (u : string) (b : N) (h : bool) (o : op) : bool :=
  match o with
  | OAdd v q => if String.eqb v u then hold_global b (up_acl q) h else h
  | ORemove v q => if String.eqb v u then lose_global b (up_acl q) h else h
  | _ => h
  end.
Definition right_db_after (u : string) (b : N) (d : Z) (h : bool) (o : op) : bool :=
  match o with
  | OAdd v q => if String.eqb v u then hold_db b d (up_dbs q) h else h
  | ORemove v q => if String.eqb v u then lose_db b d (up_dbs q) h else h
  | OInvalid ok _ => h && ok d
  | _ => h
  end.
Definition right_tbl_after (u : string) (b : N) (t : Z) (h : bool) (o : op) : bool :=
  match o with
  | OAdd v q => if String.eqb v u then hold_tbl b t (up_tbls q) h else h
  | ORemove v q => if String.eqb v u then lose_tbl b t (up_tbls q) h else h
  | OInvalid _ ok => h && ok t
  | _ => h
  end.

Definition holds_global (u : string) (q0 : user_priv) (h : list op) (b : N) : bool :=
  fold_left (global_after u b) h (hold_global b (up_acl q0) false).
Definition holds_db (u : string) (q0 : user_priv) (h : list op) (b : N) (d : Z) : bool :=
  fold_left (right_db_after u b d) h (hold_db b d (up_dbs q0) false).
Definition holds_tbl (u : string) (q0 : user_priv) (h : list op) (b : N) (t : Z) : bool :=
  fold_left (right_tbl_after u b t) h (hold_tbl b t (up_tbls q0) false).

(* Table t has been the object of a GRANT to the user, and has not been dropped since. *)
Definition tbl_named (t : Z) (es : list tbl_priv) (x : bool) : bool := x || existsb (fun e => tp_tbl e =? t) es.
Definition named_after (u : string) (t : Z) (x : bool) (o : op) : bool :=
  match o with
  | OAdd v q => if String.eqb v u then tbl_named t (up_tbls q) x else x
  | OInvalid _ ok => x && ok t
  | _ => x
  end.
Definition named (u : string) (q0 : user_priv) (h : list op) (t : Z) : bool :=
  fold_left (named_after u t) h (tbl_named t (up_tbls q0) false).

(* ---- conditions on the requests ---- *)

(* A request of user u. *)
Definition requests_of (u : string) (h : list op) : list user_priv :=
  flat_map (fun o => match o with OAdd v q | ORemove v q => if String.eqb v u then [q] else [] | _ => [] end) h.
Definition additions_of (u : string) (h : list op) : list user_priv :=
  flat_map (fun o => match o with OAdd v q => if String.eqb v u then [q] else [] | _ => [] end) h.

(* The user stays: nobody drops them. *)
Definition stays (u : string) (h : list op) : Prop := ~ In (ODrop u) h.

(* Entries name the table queried the way the catalog does, and no other table goes by its name. *)
Definition names_table (d t : Z) (n : string) (e : tbl_priv) : Prop :=
  (tp_tbl e = t -> tp_db e = d) /\ (tp_name e = n <-> tp_tbl e = t).

(* READ or WRITE is granted; no rights in the sense of GRANT. *)
Definition by_access (d t : Z) (q : user_priv) : Prop :=
  Forall (fun e => dp_db e = d -> dp_rw e <> None /\ dp_acl e = None) (up_dbs q) /\
  Forall (fun e => tp_tbl e = t -> tp_rw e <> None /\ tp_acl e = None) (up_tbls q).
(* Revoking may leave the access out, and takes everything away. *)
Definition no_rights (d t : Z) (q : user_priv) : Prop :=
  Forall (fun e => dp_db e = d -> dp_acl e = None) (up_dbs q) /\
  Forall (fun e => tp_tbl e = t -> tp_acl e = None) (up_tbls q).
(* As GRANT and REVOKE build them: rights only. *)
Definition by_rights (d t : Z) (q : user_priv) : Prop :=
  Forall (fun e => dp_db e = d -> dp_rw e = None /\ dp_acl e <> None) (up_dbs q) /\
  Forall (fun e => tp_tbl e = t -> tp_rw e = None /\ tp_acl e <> None) (up_tbls q).

(* CREATE USER lists a database and a table once. *)
Definition once (d t : Z) (q : user_priv) : Prop :=
  (length (filter (fun e => (dp_db e =? d)%Z) (up_dbs q)) <= 1)%nat /\
  (length (filter (fun e => (tp_tbl e =? t)%Z) (up_tbls q)) <= 1)%nat.

Definition access_history (u : string) (q0 : user_priv) (h : list op) (d t : Z) (n : string) : Prop :=
  stays u h /\ once d t q0 /\ by_access d t q0 /\ Forall (by_access d t) (additions_of u h) /\
  Forall (no_rights d t) (requests_of u h) /\
  Forall (fun q => Forall (names_table d t n) (up_tbls q)) (q0 :: requests_of u h).

Definition rights_history (u : string) (q0 : user_priv) (h : list op) (d t : Z) : Prop :=
  stays u h /\ once d t q0 /\ by_rights d t q0 /\ Forall (by_rights d t) (requests_of u h) /\
  Forall (fun q => Forall (fun e => tp_tbl e = t -> tp_db e = d) (up_tbls q)) (q0 :: requests_of u h).

(* The record of the meta server and what a frontend makes of it. *)
Definition meta_run (h : list op) : meta := fold_left meta_step h (fun _ => None).

(* ---- runs with frontends ---- *)

Definition ops_of (es : list event) : list op := flat_map (fun e => match e with EOp o => [o] | _ => [] end) es.

(* Requests that can change user u. *)
Definition concerns (u : string) (o : op) : Prop :=
  match o with
  | OCreate v _ | ODrop v | OModify v _ | OAdd v _ | ORemove v _ => v = u
  | OInvalid _ _ => True
  end.

(* Nobody asks for the addresses of u to be checked. *)
Definition no_address_check (u : string) (h : list op) : Prop :=
  Forall (fun o => match o with
                   | OCreate v q | OAdd v q | ORemove v q => v = u -> up_auth q <> Some true
                   | _ => True
                   end) h.

(* The same rights, whatever the two flags that are also written into objects in use. *)
Definition same_rights (a b : info) : Prop :=
  ui_password a = ui_password b /\ ui_version a = ui_version b /\ ui_auth a = ui_auth b /\ ui_ips a = ui_ips b /\
  ui_db a = ui_db b /\ ui_tbl a = ui_tbl b /\ ui_name a = ui_name b /\ ui_acl a = ui_acl b /\
  ui_acl_db a = ui_acl_db b /\ ui_acl_tbl a = ui_acl_tbl b.

(* ---- dropping tables ---- *)

(* The records and the index of users by table, after the requests h. *)
Definition indexed_run (h : list op) : meta * index :=
  fold_left (fun sx o => (meta_step (fst sx) o, index_step (fst sx) (snd sx) o)) h (fun _ => None, fun _ _ => false).

(* User u has an entry for table t. *)
Definition listed (s : meta) (u : string) (t : Z) : Prop :=
  exists m e, s u = Some m /\ In e (up_tbls m) /\ tp_tbl e = t.

(* Requests about table t of database d, called n: no other table goes by its name, CREATE USER
   lists it once, and what is revoked on it is READ and WRITE access. *)
Definition tidy (d t : Z) (n : string) (o : op) : Prop :=
  match o with
  | OCreate _ q => Forall (names_table d t n) (up_tbls q) /\ (length (filter (fun e => (tp_tbl e =? t)%Z) (up_tbls q)) <= 1)%nat
  | OAdd _ q => Forall (names_table d t n) (up_tbls q)
  | ORemove _ q => Forall (names_table d t n) (up_tbls q) /\ Forall (fun e => tp_tbl e = t -> tp_acl e = None) (up_tbls q)
  | _ => True
  end.
