(* Users and their privileges: the records the meta server keeps, the copy every SQL frontend
   builds from the heartbeat, and the check made for each statement. *)
From Coq Require Import String List ZArith NArith Bool.
Import ListNotations.
Open Scope Z_scope.

(* proto/meta.interface.proto:386-389, enum RW. *)
Inductive rw := READ | WRITE.

(* The numbers 1 and 2 of the enum. *)
Definition rw_num (r : rw) : Z := match r with READ => 1 | WRITE => 2 end.

(* proto/meta.interface.proto:391-397.  The database name is left out: requests carry the
   identifier check_and_get_for_privilege (src/meta_server/schema_manager.cpp:635-677) has looked
   up.  An optional field that is absent is None. *)
Record db_priv := mkDb { dp_db : Z; dp_rw : option rw; dp_force : bool; dp_acl : option N }.

(* proto/meta.interface.proto:399-407. *)
Record tbl_priv := mkTbl { tp_db : Z; tp_tbl : Z; tp_name : string; tp_rw : option rw; tp_force : bool; tp_acl : option N }.

(* proto/meta.interface.proto:409-434.  Left out: namespace, bns, resource_tag, txn_lock_timeout
   and the other fields that do not decide what a user may do. *)
Record user_priv := mkUser {
  up_password : string;
  up_dbs : list db_priv;
  up_tbls : list tbl_priv;
  up_ips : list string;
  up_version : Z;
  up_auth : option bool;   (* need_auth_addr *)
  up_ddl : option bool;    (* ddl_permission *)
  up_super : option bool;  (* is_super *)
  up_acl : option N
}.

(* database_rw() and table_rw() of an absent field: the first value of the enum. *)
Definition get_rw (r : option rw) : rw := match r with Some r => r | None => READ end.
(* acl() of an absent field. *)
Definition get_acl (a : option N) : N := match a with Some a => a | None => 0%N end.
Definition get_bool (b : option bool) : bool := match b with Some b => b | None => false end.

(* a & ~b on uint32 values. *)
Definition clear_bits (a b : N) : N := N.ldiff a b.

(* ---- the meta server, src/meta_server/privilege_manager.cpp ---- *)

(* The assignment to the access of an entry that exists, 399-409 and 435-445. *)
Definition raise_rw (force : bool) (new old : option rw) : option rw :=
  match new with
  | None => old
  | Some n =>
      if force then Some n
      else if rw_num n >? rw_num (get_rw old) then Some n else old
  end.

(* The acl of an entry that exists, 417-419 and 454-456. *)
Definition add_acl (new old : option N) : option N :=
  match new with
  | None => old
  | Some n => Some (N.lor (get_acl old) n)
  end.

(* insert_database_privilege, 389-420: the first entry of the database is changed, or the request
   is appended. *)
Fixpoint insert_db (p : db_priv) (l : list db_priv) : list db_priv :=
  match l with
  | [] => [p]
  | m :: l' =>
      if dp_db m =? dp_db p
      then mkDb (dp_db m) (raise_rw (dp_force p) (dp_rw p) (dp_rw m)) (dp_force m) (add_acl (dp_acl p) (dp_acl m)) :: l'
      else m :: insert_db p l'
  end.

(* insert_table_privilege, 422-457. *)
Fixpoint insert_tbl (p : tbl_priv) (l : list tbl_priv) : list tbl_priv :=
  match l with
  | [] => [p]
  | m :: l' =>
      if (tp_db m =? tp_db p) && (tp_tbl m =? tp_tbl p)
      then mkTbl (tp_db m) (tp_tbl m) (tp_name m) (raise_rw (tp_force p) (tp_rw p) (tp_rw m)) (tp_force m) (add_acl (tp_acl p) (tp_acl m)) :: l'
      else m :: insert_tbl p l'
  end.

(* insert_ip, 472-483. *)
Definition insert_ip (ip : string) (l : list string) : list string :=
  if existsb (String.eqb ip) l then l else l ++ [ip].

(* "revoke the write access": the condition of 506 and 536. *)
Definition lowers (new old : option rw) : bool :=
  match new with
  | Some n => rw_num n <? rw_num (get_rw old)
  | None => false
  end.

(* delete_database_privilege, 498-524: what is kept of one entry. *)
Definition delete_db_one (p m : db_priv) : list db_priv :=
  if dp_db m =? dp_db p then
    (if lowers (dp_rw p) (dp_rw m) then [p] else []) ++
    (match dp_acl p with
     | Some a => [mkDb (dp_db m) (dp_rw m) (dp_force m) (Some (clear_bits (get_acl (dp_acl m)) a))]
     | None => []
     end)
  else [m].

Definition delete_db (p : db_priv) (l : list db_priv) : list db_priv := flat_map (delete_db_one p) l.

(* The entries delete_database_privilege reports as deleted, 511: they are taken out of the
   index of users by database. *)
Definition deleted_dbs (p : db_priv) (l : list db_priv) : list db_priv :=
  flat_map (fun m => if (dp_db m =? dp_db p) && negb (lowers (dp_rw p) (dp_rw m)) then [p] else []) l.

(* delete_table_privilege, 526-554. *)
Definition delete_tbl_one (p m : tbl_priv) : list tbl_priv :=
  if (tp_db p =? tp_db m) && (tp_tbl p =? tp_tbl m) then
    (if lowers (tp_rw p) (tp_rw m) then [p] else []) ++
    (match tp_acl p with
     | Some a => [mkTbl (tp_db m) (tp_tbl m) (tp_name m) (tp_rw m) (tp_force m) (Some (clear_bits (get_acl (tp_acl m)) a))]
     | None => []
     end)
  else [m].

Definition delete_tbl (p : tbl_priv) (l : list tbl_priv) : list tbl_priv := flat_map (delete_tbl_one p) l.

Definition deleted_tbls (p : tbl_priv) (l : list tbl_priv) : list tbl_priv :=
  flat_map (fun m => if (tp_db p =? tp_db m) && (tp_tbl p =? tp_tbl m) && negb (lowers (tp_rw p) (tp_rw m)) then [p] else []) l.

(* delete_ip, 567-576. *)
Definition delete_ip (ip : string) (l : list string) : list string :=
  filter (fun i => negb (String.eqb i ip)) l.

(* if (request.has_f()) mem.set_f(request.f()) *)
Definition set_if {A} (new old : option A) : option A := match new with Some _ => new | None => old end.

(* add_privilege, 203-286, for a user that exists and a request that passes the check. *)
Definition add_privilege (q m : user_priv) : user_priv := {|
  up_password := up_password m;
  up_dbs := fold_left (fun l p => insert_db p l) (up_dbs q) (up_dbs m);
  up_tbls := fold_left (fun l p => insert_tbl p l) (up_tbls q) (up_tbls m);
  up_ips := fold_left (fun l ip => insert_ip ip l) (up_ips q) (up_ips m);
  up_version := up_version m + 1;
  up_auth := set_if (up_auth q) (up_auth m);
  up_ddl := set_if (up_ddl q) (up_ddl m);
  up_super := set_if (up_super q) (up_super m);
  up_acl := add_acl (up_acl q) (up_acl m)
|}.

(* 327-329: if (request.has_acl()) mem.set_acl(mem.acl() & ~request.acl()) *)
Definition drop_acl (q m : option N) : option N :=
  match q with
  | Some a => Some (clear_bits (get_acl m) a)
  | None => m
  end.

(* drop_privilege, 288-350. *)
Definition drop_privilege (q m : user_priv) : user_priv := {|
  up_password := up_password m;
  up_dbs := fold_left (fun l p => delete_db p l) (up_dbs q) (up_dbs m);
  up_tbls := fold_left (fun l p => delete_tbl p l) (up_tbls q) (up_tbls m);
  up_ips := fold_left (fun l ip => delete_ip ip l) (up_ips q) (up_ips m);
  up_version := up_version m + 1;
  up_auth := set_if (up_auth q) (up_auth m);
  up_ddl := up_ddl m;
  up_super := up_super m;
  up_acl := drop_acl (up_acl q) (up_acl m)
|}.

(* create_user, 104-106: set_version(1). *)
Definition create_user (q : user_priv) : user_priv := {|
  up_password := up_password q; up_dbs := up_dbs q; up_tbls := up_tbls q; up_ips := up_ips q;
  up_version := 1; up_auth := up_auth q; up_ddl := up_ddl q; up_super := up_super q; up_acl := up_acl q
|}.

(* modify_user, 173-180: the password (and the namespace, left out). *)
Definition modify_user (q m : user_priv) : user_priv := {|
  up_password := up_password q; up_dbs := up_dbs m; up_tbls := up_tbls m; up_ips := up_ips m;
  up_version := up_version m + 1; up_auth := up_auth m; up_ddl := up_ddl m; up_super := up_super m; up_acl := up_acl m
|}.

(* drop_invalid_privilege, 589-670, for one user: entries whose database or table is gone are
   removed.  The loop with SwapElements keeps the entries that stay in order; only when one is
   removed does the version grow. *)
Definition drop_invalid (db_ok tbl_ok : Z -> bool) (m : user_priv) : user_priv :=
  let dbs := filter (fun d => db_ok (dp_db d)) (up_dbs m) in
  let tbls := filter (fun t => tbl_ok (tp_tbl t)) (up_tbls m) in
  if Nat.ltb (length dbs) (length (up_dbs m)) || Nat.ltb (length tbls) (length (up_tbls m))
  then {| up_password := up_password m; up_dbs := dbs; up_tbls := tbls; up_ips := up_ips m;
          up_version := up_version m + 1; up_auth := up_auth m; up_ddl := up_ddl m; up_super := up_super m; up_acl := up_acl m |}
  else m.

(* The operations applied by the state machine, src/meta_server/meta_state_machine.cpp:304-327.  A
   request for which check_and_get_for_privilege fails changes nothing and is not listed. *)
Inductive op :=
| OCreate (u : string) (q : user_priv)
| ODrop (u : string)
| OModify (u : string) (q : user_priv)
| OAdd (u : string) (q : user_priv)
| ORemove (u : string) (q : user_priv)
| OInvalid (db_ok tbl_ok : Z -> bool).

Definition meta := string -> option user_priv.
Definition set_user (s : meta) (u : string) (v : option user_priv) : meta :=
  fun x => if String.eqb x u then v else s x.

(* create_user 87-128, drop_user 130-155, modify_user 157-201, add_privilege, drop_privilege:
   creating a user that exists and the other operations on a user that does not change nothing. *)
Definition meta_step (s : meta) (o : op) : meta :=
  match o with
  | OCreate u q => match s u with Some _ => s | None => set_user s u (Some (create_user q)) end
  | ODrop u => match s u with Some _ => set_user s u None | None => s end
  | OModify u q => match s u with Some m => set_user s u (Some (modify_user q m)) | None => s end
  | OAdd u q => match s u with Some m => set_user s u (Some (add_privilege q m)) | None => s end
  | ORemove u q => match s u with Some m => set_user s u (Some (drop_privilege q m)) | None => s end
  | OInvalid d t => fun x => option_map (drop_invalid d t) (s x)
  end.

(* ---- the frontend, include/session/user_info.h and src/common/schema_factory.cpp ---- *)

(* UserInfo, user_info.h:77-245.  The maps are association lists with the last assignment first. *)
Record info := mkInfo {
  ui_password : string;
  ui_version : Z;
  ui_auth : bool;
  ui_ips : list string;
  ui_ddl : bool;
  ui_super : bool;
  ui_db : list (Z * rw);
  ui_tbl : list (Z * rw);
  ui_name : list (string * rw);
  ui_acl : N;
  ui_acl_db : list (Z * N);
  ui_acl_tbl : list (Z * N)
}.

Fixpoint find_z {A} (k : Z) (l : list (Z * A)) : option A :=
  match l with [] => None | (k', v) :: l' => if k =? k' then Some v else find_z k l' end.
Fixpoint find_s {A} (k : string) (l : list (string * A)) : option A :=
  match l with [] => None | (k', v) :: l' => if String.eqb k k' then Some v else find_s k l' end.

(* The maps built by the loops of update_user, schema_factory.cpp:1616-1633: later entries replace
   earlier ones.  1635: the information schema can be read by everybody. *)
Definition db_map (info_db : Z) (l : list db_priv) : list (Z * rw) :=
  (info_db, READ) :: rev (map (fun d => (dp_db d, get_rw (dp_rw d))) l).
Definition tbl_map (l : list tbl_priv) : list (Z * rw) := rev (map (fun t => (tp_tbl t, get_rw (tp_rw t))) l).
Definition name_map (l : list tbl_priv) : list (string * rw) := rev (map (fun t => (tp_name t, get_rw (tp_rw t))) l).
Definition acl_db_map (l : list db_priv) : list (Z * N) :=
  rev (flat_map (fun d => match dp_acl d with Some a => [(dp_db d, a)] | None => [] end) l).
Definition acl_tbl_map (l : list tbl_priv) : list (Z * N) :=
  rev (flat_map (fun t => match tp_acl t with Some a => [(tp_tbl t, a)] | None => [] end) l).

(* The new UserInfo of update_user, 1570-1643.  The addresses of services (bns) are not modelled,
   nor is the trimming of spaces around an address. *)
Definition build_info (info_db : Z) (u : user_priv) : info := {|
  ui_password := up_password u;
  ui_version := up_version u;
  ui_auth := get_bool (up_auth u);
  ui_ips := if get_bool (up_auth u) then up_ips u else [];
  ui_ddl := get_bool (up_ddl u);
  ui_super := get_bool (up_super u);
  ui_db := db_map info_db (up_dbs u);
  ui_tbl := tbl_map (up_tbls u);
  ui_name := name_map (up_tbls u);
  ui_acl := get_acl (up_acl u);
  ui_acl_db := acl_db_map (up_dbs u);
  ui_acl_tbl := acl_tbl_map (up_tbls u)
|}.

(* 1537-1565: the object that is replaced, which connections still hold, takes over some flags. *)
Definition patch_info (u : user_priv) (i : info) : info := {|
  ui_password := ui_password i; ui_version := ui_version i; ui_auth := ui_auth i; ui_ips := ui_ips i;
  ui_ddl := if get_bool (up_auth u) then ui_ddl i else match up_ddl u with Some b => b | None => ui_ddl i end;
  ui_super := match up_super u with Some b => b | None => ui_super i end;
  ui_db := ui_db i; ui_tbl := ui_tbl i; ui_name := ui_name i;
  ui_acl := ui_acl i; ui_acl_db := ui_acl_db i; ui_acl_tbl := ui_acl_tbl i
|}.

(* The statements for which a table is checked, src/logical_plan/logical_planner.cpp:927-949, and
   the operations of get_op_require_acl, user_info.h:31-75.  SNone is pb::OP_NONE and every other
   operation. *)
Inductive stmt := SSelect | SUnion | SInsert | SUpdate | SDelete | SLoad | SCreate | SDropTable | SAlter | SIndex | SUserOp | SGrant | SNone.

(* include/sqlparser/misc.h:134-165 *)
Definition SELECT_ACL := 1%N.
Definition INSERT_ACL := 2%N.
Definition UPDATE_ACL := 4%N.
Definition DELETE_ACL := 8%N.
Definition CREATE_ACL := 16%N.
Definition DROP_ACL := 32%N.
Definition FILE_ACL := 512%N.
Definition GRANT_ACL := 1024%N.
Definition INDEX_ACL := 4096%N.
Definition ALTER_ACL := 8192%N.
Definition CREATE_USER_ACL := 33554432%N.

(* get_op_require_acl, user_info.h:31-75 *)
Definition require_acl (s : stmt) : N :=
  match s with
  | SSelect | SUnion => SELECT_ACL
  | SInsert => INSERT_ACL
  | SDelete => DELETE_ACL
  | SUpdate => UPDATE_ACL
  | SLoad => FILE_ACL
  | SCreate => CREATE_ACL
  | SDropTable => DROP_ACL
  | SAlter => ALTER_ACL
  | SIndex => INDEX_ACL
  | SUserOp => CREATE_USER_ACL
  | SGrant => GRANT_ACL
  | SNone => 0%N
  end.

Definition is_write (r : option rw) : bool := match r with Some WRITE => true | _ => false end.
Definition is_some {A} (o : option A) : bool := match o with Some _ => true | None => false end.

(* allow_write, 104-115; allow_read, 117-128 *)
Definition allow_write (i : info) (db tbl : Z) (name : string) : bool :=
  is_write (find_z db (ui_db i)) || is_write (find_z tbl (ui_tbl i)) || is_write (find_s name (ui_name i)).
Definition allow_read (i : info) (db tbl : Z) (name : string) : bool :=
  is_some (find_z db (ui_db i)) || is_some (find_z tbl (ui_tbl i)) || is_some (find_s name (ui_name i)).

(* allow_op_v1, 130-139 *)
Definition allow_op_v1 (i : info) (s : stmt) (db tbl : Z) (name : string) : bool :=
  if ui_super i then true
  else match s with
       | SSelect => allow_read i db tbl name
       | _ => allow_write i db tbl name
       end.

(* contain_privs, 180-195 *)
Definition covers (need have : N) : bool := N.eqb need (N.land need have).
Definition contain_privs (i : info) (need : N) (db tbl : Z) : bool :=
  covers need (ui_acl i)
  || (negb (db =? -1) && match find_z db (ui_acl_db i) with Some a => covers need a | None => false end)
  || (negb (tbl =? -1) && match find_z tbl (ui_acl_tbl i) with Some a => covers need a | None => false end).

(* acl_v2_is_valid, 172-174 *)
Definition acl_valid (i : info) : bool :=
  negb (N.eqb (ui_acl i) 0) || negb (match ui_acl_db i with [] => true | _ => false end)
  || negb (match ui_acl_tbl i with [] => true | _ => false end).

(* std::map::count *)
Definition count_z {A} (k : Z) (l : list (Z * A)) : Z := match find_z k l with Some _ => 1 | None => 0 end.

(* allow_op, 197-203 *)
Definition allow_op (i : info) (s : stmt) (db tbl : Z) (name : string) : bool :=
  if acl_valid i && ((count_z db (ui_acl_db i) >? 1) || (count_z tbl (ui_acl_tbl i) >? 0))
  then contain_privs i (require_acl s) db tbl
  else allow_op_v1 i s db tbl name.

(* allow_addr, 141-150 *)
Definition allow_addr (i : info) (ip : string) : bool :=
  if ui_auth i then existsb (String.eqb ip) (ui_ips i) else true.

(* allow_ddl, 152-160.  [verify] is FLAGS_need_verify_ddl_permission, false unless it is set
   (src/common/common.cpp:72). *)
Definition allow_ddl (verify : bool) (i : info) : bool :=
  if negb verify then true else if ui_super i then true else ui_ddl i.

(* The checks of a DDL statement on a table, src/logical_plan/ddl_planner.cpp:28-34 and 178-227.
   CREATE TABLE is checked with table_id -1. *)
Definition ddl_allowed (verify : bool) (i : info) (s : stmt) (db tbl : Z) (name : string) : bool :=
  allow_ddl verify i &&
  (if acl_valid i then allow_op i s db (match s with SCreate => -1 | _ => tbl end) name else true).

(* GRANT and REVOKE of the rights [acl] at a level, ddl_planner.cpp:28-34, 136-151, parse_priv
   2929-3006, and the check at 178-227, which finds neither a database nor a table in the request. *)
Definition grant_allowed (verify : bool) (i : info) (acl : N) (db tbl : Z) : bool :=
  allow_ddl verify i &&
  (if acl_valid i
   then contain_privs i (N.lor acl GRANT_ACL) db tbl && allow_op i SGrant (-1) (-1) ""
   else true).

(* The request parse_priv builds, 2958-2992: the rights go to one level, no access and no force. *)
Definition blank : user_priv := mkUser "" [] [] [] 0 None None None None.
Inductive level := LGlobal | LDb (db : Z) | LTbl (db tbl : Z) (name : string).
Definition priv_request (l : level) (acl : N) : user_priv :=
  match l with
  | LGlobal => mkUser "" [] [] [] 0 None None None (Some acl)
  | LDb db => mkUser "" [mkDb db None false (Some acl)] [] [] 0 None None None None
  | LTbl db tbl name => mkUser "" [] [mkTbl db tbl name None false (Some acl)] [] 0 None None None None
  end.

(* ---- a frontend and its connections ---- *)

(* _user_info_mapping and the objects it has pointed to: the users' current objects, and for each
   connection its user, the object it holds, and the contents of the object. *)
Record conn := mkConn { c_user : string; c_oid : nat; c_info : info }.
Record frontend := mkFe { fe_map : string -> option (nat * info); fe_next : nat; fe_conns : list conn }.

Definition patch_conn (oid : nat) (u : user_priv) (c : conn) : conn :=
  if Nat.eqb (c_oid c) oid then mkConn (c_user c) (c_oid c) (patch_info u (c_info c)) else c.

(* update_user, schema_factory.cpp:1522-1670. *)
Definition update_user (info_db : Z) (f : frontend) (name : string) (u : user_priv) : frontend :=
  match fe_map f name with
  | None =>
      mkFe (fun x => if String.eqb x name then Some (fe_next f, build_info info_db u) else fe_map f x)
           (S (fe_next f)) (fe_conns f)
  | Some (oid, old) =>
      if negb (get_bool (up_auth u)) && (ui_version old >=? up_version u) then f
      else mkFe (fun x => if String.eqb x name then Some (fe_next f, build_info info_db u) else fe_map f x)
                (S (fe_next f)) (map (patch_conn oid u) (fe_conns f))
  end.

(* The loop over privilege_change_info, src/common/baikal_heartbeat.cpp:265-267: the response lists
   every user of the meta server, privilege_manager.cpp:352-359, in some order [names]. *)
Definition heartbeat (info_db : Z) (names : list string) (snap : meta) (f : frontend) : frontend :=
  fold_left (fun f n => match snap n with Some u => update_user info_db f n u | None => f end) names f.

(* A new connection, src/protocol/state_machine.cpp:624-681: the user must be known, the scrambled
   password must be that of the user, and the address must be allowed.  [scramble] is the hash of
   src/common/password.cpp with the fixed salt. *)
Definition login (scramble : string -> string) (f : frontend) (name pass ip : string) : option conn :=
  match fe_map f name with
  | None => None
  | Some (oid, i) =>
      if String.eqb (scramble pass) (scramble (ui_password i)) && allow_addr i ip then Some (mkConn name oid i) else None
  end.

(* state_machine.cpp:1040-1048, for a query that comes ten seconds after the last refresh. *)
Definition refresh (f : frontend) (c : conn) : conn :=
  match fe_map f (c_user c) with
  | Some (oid, i) => if ui_version i >? ui_version (c_info c) then mkConn (c_user c) oid i else c
  | None => c
  end.

(* One run of a meta server and a frontend.  [y_past] lists the states of the meta server, latest
   first: a heartbeat delivers any of them, since responses are built, sent and handled at
   different times. *)
Record sys := mkSys { y_past : list meta; y_fe : frontend }.
Definition y_meta (y : sys) : meta := hd (fun _ => None) (y_past y).

Inductive event :=
| EOp (o : op)
| EHeartbeat (age : nat) (names : list string)
| ELogin (name pass ip : string)
| ERefresh (k : nat).

Fixpoint map_nth {A} (k : nat) (g : A -> A) (l : list A) : list A :=
  match l, k with
  | [], _ => []
  | x :: l', O => g x :: l'
  | x :: l', S k' => x :: map_nth k' g l'
  end.

Definition sys_step (scramble : string -> string) (info_db : Z) (y : sys) (e : event) : sys :=
  match e with
  | EOp o => mkSys (meta_step (y_meta y) o :: y_past y) (y_fe y)
  | EHeartbeat age names =>
      match nth_error (y_past y) age with
      | Some snap => mkSys (y_past y) (heartbeat info_db names snap (y_fe y))
      | None => y
      end
  | ELogin n p ip =>
      match login scramble (y_fe y) n p ip with
      | Some c => mkSys (y_past y) (mkFe (fe_map (y_fe y)) (fe_next (y_fe y)) (fe_conns (y_fe y) ++ [c]))
      | None => y
      end
  | ERefresh k => mkSys (y_past y) (mkFe (fe_map (y_fe y)) (fe_next (y_fe y)) (map_nth k (refresh (y_fe y)) (fe_conns (y_fe y))))
  end.

Definition sys_init : sys := mkSys [fun _ => None] (mkFe (fun _ => None) 0 []).
Definition sys_run (scramble : string -> string) (info_db : Z) (es : list event) : sys :=
  fold_left (sys_step scramble info_db) es sys_init.

(* ---- the index of users by table, include/meta_server/privilege_manager.h:100-130 ---- *)

(* _tbl_user_map: true when the user is listed under the table. *)
Definition index := Z -> string -> bool.
Definition index_add (x : index) (t : Z) (u : string) : index := fun t' u' => ((t' =? t) && String.eqb u' u) || x t' u'.
Definition index_del (x : index) (t : Z) (u : string) : index := fun t' u' => negb ((t' =? t) && String.eqb u' u) && x t' u'.

(* The entries insert_table_privilege appends, 450-453, are put into the index. *)
Fixpoint has_tbl (p : tbl_priv) (l : list tbl_priv) : bool :=
  match l with [] => false | m :: l' => ((tp_db m =? tp_db p) && (tp_tbl m =? tp_tbl p)) || has_tbl p l' end.
Fixpoint inserted_tbls (q l : list tbl_priv) : list tbl_priv :=
  match q with
  | [] => []
  | p :: q' => (if has_tbl p l then [] else [p]) ++ inserted_tbls q' (insert_tbl p l)
  end.
Fixpoint removed_tbls (q l : list tbl_priv) : list tbl_priv :=
  match q with
  | [] => []
  | p :: q' => deleted_tbls p l ++ removed_tbls q' (delete_tbl p l)
  end.
Definition add_all (u : string) (ts : list tbl_priv) (x : index) : index := fold_left (fun x t => index_add x (tp_tbl t) u) ts x.
Definition del_all (u : string) (ts : list tbl_priv) (x : index) : index := fold_left (fun x t => index_del x (tp_tbl t) u) ts x.

(* The updates of the index beside each operation: privilege_manager.cpp:125, 152, 283, 347, 656. *)
Definition index_step (s : meta) (x : index) (o : op) : index :=
  match o with
  | OCreate u q => match s u with Some _ => x | None => add_all u (up_tbls q) x end
  | ODrop u => match s u with Some m => del_all u (up_tbls m) x | None => x end
  | OModify _ _ => x
  | OAdd u q => match s u with Some m => add_all u (inserted_tbls (up_tbls q) (up_tbls m)) x | None => x end
  | ORemove u q => match s u with Some m => del_all u (removed_tbls (up_tbls q) (up_tbls m)) x | None => x end
  | OInvalid _ t => fun t' u' => x t' u' && negb (match s u' with Some m => existsb (fun e => (tp_tbl e =? t') && negb (t t')) (up_tbls m) | None => false end)
  end.

(* drop_privilege_for_table, src/meta_server/table_manager.cpp:6615-6631, called by drop_table at
   881 while the table can still be looked up: the users in the index lose the table.  [users] is
   the order in which the set of users is walked. *)
Definition drop_table_request (db tbl : Z) (name : string) : user_priv :=
  mkUser "" [] [mkTbl db tbl name None false None] [] 0 None None None None.
Fixpoint drop_table_ops (users : list string) (x : index) (db tbl : Z) (name : string) : list op :=
  match users with
  | [] => []
  | u :: us => (if x tbl u then [ORemove u (drop_table_request db tbl name)] else []) ++ drop_table_ops us x db tbl name
  end.
