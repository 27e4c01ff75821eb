(** * What partial rollback should do, without save points

    A transaction at one region is the list of the statements it has run.  A
    statement that fails leaves nothing.  A request that names numbers to roll
    back removes exactly those statements, wherever they are; all others stay,
    in order.  A request whose number has been seen is not run again. *)
From Coq Require Import List ZArith Bool Arith.
From Verif.Txn Require Import SaveModel.
Import ListNotations.

Section Spec.
Context {W : Type}.

(** The statements that stand, oldest first, and the highest number served;
    BEGIN is number 1. *)
Record view := mkV { v_run : list (stmt W); v_last : nat }.

Definition drop (bad : list nat) (l : list (stmt W)) : list (stmt W) :=
  filter (fun s => negb (existsb (Nat.eqb (s_seq s)) bad)) l.

(** The statements a request asks for: the cached ones the region has not seen,
    and its own if it is a data statement; those on its own list are left out. *)
Definition asked (last : nat) (q : request W) : list (stmt W) :=
  drop (q_bad q)
    ((if last <? q_seq q - 1 then filter (fun c => last <? s_seq c) (q_cached q) else [])
     ++ match q_kind q with
        | KDml => [mkS (q_seq q) (q_w q) (q_rows q)]
        | KForUpdate => [mkS (q_seq q) [] 0]
        | _ => []
        end).

(** Whether the request as a whole succeeds: none of the statements it runs
    fails, and the raft group accepts it (a plain SELECT is not replicated). *)
Definition succeeds (e : env W) (last : nat) (q : request W) : bool :=
  forallb (fun s => match e_fail e (s_seq s) with None => true | _ => false end) (asked last q)
  && match q_kind q with
     | KSelect => match e_fail e (q_seq q) with None => true | _ => false end
     | _ => e_raft e
     end.

Definition serve_view (e : env W) (q : request W) (v : view) : view :=
  if (q_seq q <=? v_last v) then v
  else if succeeds e (v_last v) q
       then mkV (drop (q_bad q) (v_run v) ++ asked (v_last v) q) (q_seq q)
       else mkV (drop (q_bad q) (v_run v)) (v_last v).

Definition serve_views (rs : list (env W * request W)) (v : view) : view :=
  fold_left (fun v r => serve_view (fst r) (snd r) v) rs v.

Definition empty_view : view := mkV [] 1.

(** What the statements of a view write, and the rows they add. *)
Definition writes (l : list (stmt W)) : list W := concat (map s_w l).
Definition rows (l : list (stmt W)) : Z := fold_right Z.add 0%Z (map s_rows l).

(** The discipline of the SQL node (dml_manager_node.cpp 31-36, 96-107,
    fetcher_store.cpp 201-203): [F] says which numbers it has given up.  It
    decides that before it sends the next number, so every request carries
    exactly the given-up numbers below its own.  Cached statements have
    increasing numbers between BEGIN (1) and the request's own, and are never
    given up: the SQL node caches BEGIN and the one statement of an autocommit
    transaction (single_txn_manager_node.cpp 44-58). *)
Fixpoint increasing (l : list nat) : Prop :=
  match l with
  | [] => True
  | x :: r => match r with [] => True | y :: _ => x < y end /\ increasing r
  end.

Definition well_formed (F : nat -> bool) (q : request W) : Prop :=
  2 <= q_seq q /\
  (forall n, In n (q_bad q) <-> (n < q_seq q /\ F n = true)) /\
  increasing (1 :: map s_seq (q_cached q) ++ [q_seq q]) /\
  (forall c, In c (q_cached q) -> F (s_seq c) = false).

(** Plain SELECT and SELECT FOR UPDATE run again when they are repeated; the
    statement about all histories is for those that do not arrive late. *)
Definition reads_in_order (last : nat) (q : request W) : Prop :=
  match q_kind q with
  | KSelect | KForUpdate => last < q_seq q
  | _ => True
  end.

Fixpoint history (F : nat -> bool) (rs : list (env W * request W)) (v : view) : Prop :=
  match rs with
  | [] => True
  | (e, q) :: r => well_formed F q /\ reads_in_order (v_last v) q /\
                   history F r (serve_view e q v)
  end.

End Spec.
Arguments view : clear implicits.

(** ** What a user sees of it: the statements that were executed, and those of
    them that were not given up later *)
Section Executed.
Context {W : Type}.

(** Every statement that ran successfully in a successful request. *)
Fixpoint executed (rs : list (env W * request W)) (v : view W) : list (stmt W) :=
  match rs with
  | [] => []
  | (e, q) :: r =>
      (if (v_last v <? q_seq q) && succeeds e (v_last v) q then asked (v_last v) q else [])
      ++ executed r (serve_view e q v)
  end.

Definition kept (F : nat -> bool) (l : list (stmt W)) : list (stmt W) :=
  filter (fun s => negb (F (s_seq s))) l.

(** The uncommitted writes and the row count delta of a region; a transaction
    that is still unknown has none. *)
Definition uncommitted (o : option (txn W)) : list W * Z :=
  match o with None => ([], 0%Z) | Some t => (t_batch t, t_rows t) end.

(** The SQL node sends either no plain SELECT in the transaction, or no cached
    statement but BEGIN (an autocommit statement is not followed by a SELECT). *)
Definition one_style (rs : list (env W * request W)) : Prop :=
  Forall (fun r => q_kind (snd r) <> KSelect) rs \/ Forall (fun r => q_cached (snd r) = []) rs.

End Executed.
