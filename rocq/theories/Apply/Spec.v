(** * What a log means, without any store that could stop

    The meaning of a replicated log is the sequence of batches it makes durable: a write
    outside transactions is a batch of its own; COMMIT of a prepared transaction is one
    batch, made of the writes of its statements that stand.  Nothing here mentions records,
    restarts or an applied index. *)

From Coq Require Import List Arith ZArith Lia Bool.
From Verif Require Import Apply.Model.
Import ListNotations.

Section Spec.
Context {W : Type}.

(** An open transaction: number of its last request, its standing statements (number and
    writes), prepared or not. *)
Record otx := mkO { o_seq : nat; o_run : list (nat * W); o_prep : bool }.

(** The meaning of a log prefix: open transactions, durable batches, transactions rolled
    back, and those among them that must be remembered as rolled back. *)
Record meaning := mkS {
  sp_open : nat -> option otx;  sp_data : list (list W);
  sp_rolled : list nat;  sp_tag : list nat }.

Definition nothing : meaning := mkS (fun _ => None) [] [] [].

(** Statements given up later are taken from the end. *)
Fixpoint strip (bad : list nat) (l : list (nat * W)) : list (nat * W) :=
  match l with
  | [] => []
  | x :: r => if existsb (Nat.eqb (fst x)) bad then strip bad r else l
  end.
Definition stand (bad : list nat) (l : list (nat * W)) : list (nat * W) := rev (strip bad (rev l)).

Definition opened (o : option otx) (beg : bool) : option otx :=
  match o with Some x => Some x | None => if beg then Some (mkO 1 [] false) else None end.
Definition last_of (o : option otx) : nat := match o with Some x => o_seq x | None => 0 end.

Definition statement (bad : list nat) (x : otx) (s : stmt W) : otx :=
  mkO (s_seq s)
      (if existsb (Nat.eqb (s_seq s)) bad then stand bad (o_run x)
       else stand bad (o_run x) ++ [(s_seq s, s_w s)])
      (o_prep x).
Definition statements (bad : list nat) (last : nat) (l : list (stmt W)) (x : otx) : otx :=
  fold_left (fun x s => if s_seq s <=? last then x else statement bad x s) l x.

(** What an entry does to its transaction: it stays as given (absent or open), it is
    committed with a batch, or it is dropped ([Some tag]: by a ROLLBACK). *)
Inductive fate := Stays (o : option otx) | Commits (batch : list W) | Drops (rb : option bool).

Definition fate_of (e : entry W) (o : option otx) : fate :=
  match e with
  | EOut _ _ | EAdmin => Stays o
  | EStmt _ beg bad s =>
      match opened o beg with
      | None => Stays None
      | Some x => Stays (Some (if s_seq s <=? last_of o then x else statement bad x s))
      end
  | EPrep _ beg bad seq cached one =>
      match (if last_of o <? seq - 1
             then option_map (statements bad (last_of o) cached) (opened o beg) else o) with
      | None => Stays None
      | Some x =>
          if seq <=? last_of o then Stays (Some x)
          else if one then Commits (map snd (stand bad (o_run x)))
          else Stays (Some (mkO seq (stand bad (o_run x)) true))
      end
  | ECommit _ seq =>
      match o with
      | None => Stays None
      | Some x =>
          if seq <=? o_seq x then Stays (Some x)
          else if o_prep x then Commits (map snd (o_run x)) else Drops None
      end
  | ERoll _ beg seq prim =>
      match (if last_of o <? seq - 1 then opened o beg else o) with
      | None => Stays None
      | Some x => if seq <=? last_of o then Stays (Some x) else Drops (Some prim)
      end
  end.

Definition mean_step (s : meaning) (e : entry W) : meaning :=
  match e with
  | EOut w _ => mkS (sp_open s) (sp_data s ++ [[w]]) (sp_rolled s) (sp_tag s)
  | _ =>
      match txn_of e with
      | None => s
      | Some t =>
          match fate_of e (sp_open s t) with
          | Stays o => mkS (upd (sp_open s) t o) (sp_data s) (sp_rolled s) (sp_tag s)
          | Commits b => mkS (upd (sp_open s) t None) (sp_data s ++ [b]) (sp_rolled s) (sp_tag s)
          | Drops None => mkS (upd (sp_open s) t None) (sp_data s) (sp_rolled s) (sp_tag s)
          | Drops (Some p) =>
              mkS (upd (sp_open s) t None) (sp_data s) (t :: sp_rolled s)
                  (if p then t :: sp_tag s else sp_tag s)
          end
      end
  end.

(** Meaning of the first [n] entries. *)
Definition mean (log : list (entry W)) (n : nat) : meaning := fold_left mean_step (firstn n log) nothing.

(** ** Logs a database server produces *)

(** The entry may end its transaction, may open it. *)
Definition may_end (e : entry W) : bool :=
  match e with ECommit _ _ | ERoll _ _ _ _ | EPrep _ _ _ _ _ true => true | _ => false end.
Definition may_open (e : entry W) : bool :=
  match e with EStmt _ b _ _ | EPrep _ b _ _ _ _ | ERoll _ b _ _ => b | _ => false end.

(** After COMMIT, ROLLBACK or a one-phase PREPARE nothing opens the transaction again; and a
    prepared transaction takes no further statement or PREPARE (one that is repeated has an
    old sequence number). *)
Definition proper (log : list (entry W)) : Prop :=
  (forall i j e e' t, i < j -> entry_at log i = Some e -> entry_at log j = Some e' ->
     txn_of e = Some t -> txn_of e' = Some t -> may_end e = true -> may_open e' = false) /\
  (forall n e t x, entry_at log (S n) = Some e -> txn_of e = Some t ->
     sp_open (mean log n) t = Some x -> o_prep x = true ->
     match e with
     | EStmt _ _ _ s => s_seq s <= o_seq x
     | EPrep _ _ _ seq _ _ => seq <= o_seq x
     | _ => True
     end).

(** ** Stops that the store survives *)

(** The stop falls between the commit of a one-phase PREPARE of a transaction that was open
    before, and the record of it. *)
Definition splits_one_phase (log : list (entry W)) (d : disk W) (m : mem W) (pos k : nat) : Prop :=
  (exists t b bad seq c,
     entry_at log (S pos) = Some (EPrep t b bad seq c true) /\ m_pool m t <> None) /\
  length (d_data (writes d (firstn k (fst (handle log m pos))))) <>
    length (d_data d) /\
  k < length (fst (handle log m pos)).

(** An earlier stop left a record that a transaction is about to end, and it has not been
    prepared again since. *)
Definition half_ended (d : disk W) : Prop :=
  exists t p, In (t, p) (d_pre d) /\ ~ In t (map fst (d_prep d)).

(** A stop or a restart is covered when
    - a stop meets no half ended transaction and does not split the one-phase commit of a transaction begun by an earlier
      entry;
    - a restart runs to its end (or writes nothing), and the log still holds every entry of
      the open transactions and what follows the snapshot. *)
Definition covered (log : list (entry W)) (x : node W) (v : event) : Prop :=
  match x, v with
  | Up d m pos, Stop k => ~ half_ended d /\ ~ splits_one_phase log d m pos k
  | Down d pos, Start snap first =>
      first <= S snap /\ forall t f, In (t, f) (d_log d) -> first <= f
  | Down _ _, StopStart _ _ k => k = 0
  | _, _ => True
  end.

Fixpoint all_covered (log : list (entry W)) (x : node W) (l : list event) : Prop :=
  match l with
  | [] => True
  | v :: r => covered log x v /\ match step log x v with Some y => all_covered log y r | None => True end
  end.

(** The store runs and has taken the whole log. *)
Definition caught_up (log : list (entry W)) (x : node W) : Prop :=
  match x with Up _ _ pos => pos = length log | Down _ _ => False end.

End Spec.
Arguments otx : clear implicits.
Arguments meaning : clear implicits.
Arguments fate : clear implicits.
