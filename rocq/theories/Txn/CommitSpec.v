(** * What the user may rely on, and the conditions under which it holds

    The specification speaks only of what happened: which statements were sent to which
    region, which of them the server gave up, what the user was told, and with which
    statements each region committed or dropped the transaction. *)

From Coq Require Import List Arith Lia Bool.
From Verif Require Import Txn.CommitModel.
Import ListNotations.

(** The server sent statement [k] to region [r] (on its own or along with PREPARE). *)
Definition sent_to (s : st) (r k : nat) : Prop :=
  exists q, In (r, q) (s_sent s) /\
    ((q_op q = RDml /\ q_seq q = k) \/ In k (q_cached q)).

(** The server gave statement [k] up: it failed, and the user knows. *)
Definition given_up (s : st) (k : nat) : Prop := In k (c_bad (s_cli s)).

(** Region [r] committed the transaction, with the writes of the statements [l]. *)
Definition committed_with (s : st) (r : nat) (l : list nat) : Prop :=
  In (true, l) (g_hist (s_reg s r)).

(** Region [r] dropped the transaction, and with it the writes of the statements [l]. *)
Definition dropped_with (s : st) (r : nat) (l : list nat) : Prop :=
  In (false, l) (g_hist (s_reg s r)).

(** What the user was told. *)
Definition told_committed (s : st) : Prop := c_ph (s_cli s) = PDone.
Definition told_rolled_back (s : st) : Prop := c_ph (s_cli s) = PAb.

(** Region [r] can only commit all its statements: it is prepared and holds them. *)
Definition holds_all_prepared (s : st) (r : nat) : Prop :=
  exists pl, g_pool (s_reg s r) = Some pl /\ pl_prep pl = true /\
    forall k, sent_to s r k -> ~ given_up s k -> In k (pl_run pl).

(** The primary still has the transaction, or left a trace of how it ended. *)
Definition accounted (p : nat) (s : st) : bool :=
  match g_pool (s_reg s p) with Some _ => true | None => false end ||
  g_tag (s_reg s p) || existsb fst (g_hist (s_reg s p)).

(** The five things a history must not contain; each of them is shown in the properties file
    to break the claim:
    - a transaction is removed by force;
    - the marks of finished transactions are cleared while the transaction is alive;
    - a region prepared in the meantime obeys an answer to a question it asked before;
    - a delayed statement is executed on a transaction that is already prepared;
    - the primary, having answered the server once, loses or drops the transaction without leaving
      the rollback tag, or finishes it that way while the server is still working on it. *)
Definition harmless (p : nat) (a : action) (s : st) : bool :=
  match a with
  | AForce _ | AForget _ => false
  | AObey i =>
      match nth_error (s_ans s) i with
      | Some (r, SBegined) =>
          match g_pool (s_reg s r) with Some pl => negb (pl_prep pl) | None => true end
      | _ => true
      end
  | ADeliver i FOk =>
      match nth_error (s_sent s) i with
      | Some (r, mkReq RDml n _ _) =>
          match g_pool (s_reg s r) with
          | Some pl => negb (pl_prep pl) || (n <=? pl_seq pl)
          | None => true
          end
      | _ => true
      end
  | _ => true
  end.

Definition keeps_track (p : nat) (s s' : st) : bool :=
  negb (accounted p s) || accounted p s' ||
  (negb (primed p s) && (negb (g_fin (s_reg s' p)) || phase_eqb (c_ph (s_cli s)) PAb)).

(** A history without them, from state [s] to state [s']. *)
Inductive calm_run (p : nat) : list action -> st -> st -> Prop :=
| calm_nil : forall s, calm_run p [] s s
| calm_cons : forall a l s s1 s',
    step p a s = Some s1 ->
    harmless p a s = true ->
    keeps_track p s s1 = true ->
    calm_run p l s1 s' ->
    calm_run p (a :: l) s s'.
