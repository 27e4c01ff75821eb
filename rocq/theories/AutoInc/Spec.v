(* What the auto-increment properties mean. *)
From Verif.AutoInc Require Import Model.
Local Open Scope Z_scope.

Definition is_u64 (x : Z) : Prop := 0 <= x < 2 ^ 64.
Definition opt_ok (o : option Z) : Prop := match o with Some x => is_u64 x | None => True end.
Definition op_ok (o : op) : Prop :=
  match o with
  | OAdd _ s _ => is_u64 s
  | ODrop _ => True
  | OGen _ c s => is_u64 c /\ opt_ok s
  | OUpdate _ s i _ => opt_ok s /\ opt_ok i
  end.

(* operations that may legitimately make ids of table t start again: dropping the
   table's counter and a forced update *)
Definition restarts (t : Z) (o : op) : Prop :=
  match o with
  | ODrop t' => t' = t
  | OUpdate t' _ _ true => t' = t
  | _ => False
  end.

(* an upper bound on every id the history can reach: the largest explicit id plus
   everything that was counted up *)
Definition explicit_of (o : op) : Z :=
  match o with
  | OAdd _ s _ => s
  | OGen _ _ (Some s) => s + 1
  | OUpdate _ (Some s) _ _ => s + 1
  | _ => 0
  end.
Definition counted (o : op) : Z :=
  match o with
  | OGen _ c _ => c
  | OUpdate _ _ (Some i) _ => i
  | _ => 0
  end.
Fixpoint highest (l : list op) : Z := match l with [] => 0 | o :: l' => Z.max (explicit_of o) (highest l') end.
Fixpoint total (l : list op) : Z := match l with [] => 0 | o :: l' => counted o + total l' end.
Definition no_overflow (l : list op) : Prop := highest l + total l < 2 ^ 64.

(* the response to entry i of a log applied from the empty service *)
Definition answer (l : list op) (i : nat) : option resp := nth_error (snd (apply_log [] l)) i.
Definition between (i j : nat) (l : list op) (P : op -> Prop) : Prop :=
  forall k o, (i < k < j)%nat -> nth_error l k = Some o -> P o.

(* explicit id m recorded at the service by entry o with answer r *)
Definition records_id (o : op) (r : resp) (t m : Z) : Prop :=
  (exists c, o = OGen t c (Some m) /\ r <> RErr) \/ (exists f, o = OUpdate t (Some m) None f /\ r = ROk).

(* rows of an INSERT *)
Definition wants_id (v : option Z) : Prop := v = None \/ v = Some 0.
Definition row_range (v : option Z) : Prop := match v with None => True | Some x => - 2 ^ 63 <= x < 2 ^ 63 end.
(* id x was generated for some row: rows before, rows after *)
Definition generated (rows rows' : list (option Z)) (k : nat) (x : Z) : Prop :=
  exists v, nth_error rows k = Some v /\ wants_id v /\ nth_error rows' k = Some (Some x).
Definition explicit (rows : list (option Z)) (x : Z) : Prop := In (Some x) rows /\ x <> 0.

(* histories of administrative operations and INSERT statements *)
Definition event_ok (e : event) : Prop :=
  match e with EvOp o => op_ok o | EvIns _ _ rows => Forall row_range rows end.
Definition restarts_ev (t : Z) (e : event) : Prop :=
  match e with EvOp o => restarts t o | EvIns _ _ _ => False end.
(* the largest explicit id of the history, and how much is counted up in total *)
Definition row_max (rows : list (option Z)) : Z :=
  fold_right (fun v a => match v with Some x => Z.max (x + 1) a | None => a end) 0 rows.
Definition ev_explicit (e : event) : Z :=
  match e with EvOp o => explicit_of o | EvIns _ _ rows => Z.max 1 (row_max rows) end.
Definition ev_counted (e : event) : Z :=
  match e with EvOp o => counted o | EvIns _ _ rows => Z.of_nat (length rows) end.
Definition ids_fit (es : list event) : Prop :=
  fold_right (fun e a => Z.max (ev_explicit e) a) 0 es + fold_right (fun e a => ev_counted e + a) 0 es < 2 ^ 63.
(* the result of event i of a history starting with an empty id service *)
Definition outcome (es : list event) (i : nat) (r : ins_res) : Prop :=
  nth_error (history [] es) i = Some (Some r).
