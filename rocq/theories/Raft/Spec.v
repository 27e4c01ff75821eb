(* What the raft log properties mean: a log is a first index and a list of entries. *)
From Verif.Raft Require Import Model.
Local Open Scope Z_scope.

Definition i64 (x : Z) : Prop := - 2 ^ 63 <= x < 2 ^ 63.

(* l_prev: the term of the last entry dropped from the front (0 if none): the raft
   protocol never appends an entry with a smaller term behind it *)
Record slog := mk_slog { l_first : Z; l_prev : Z; l_ents : list entry }.
Definition l_last (s : slog) : Z := l_first s + Z.of_nat (length (l_ents s)) - 1.
Definition entry_at (s : slog) (i : Z) : option entry :=
  if i <? l_first s then None else nth_error (l_ents s) (Z.to_nat (i - l_first s)).
Definition empty_log : slog := mk_slog 1 0 [].
Definition last_term (p : Z) (es : list entry) : Z := last (map e_term es) p.

(* the four operations on the abstract log *)
Definition spec_op (s : slog) (o : rop) : slog :=
  match o with
  | RAppend es => mk_slog (l_first s) (l_prev s) (l_ents s ++ es)
  | RTruncPrefix k _ =>
      if k <=? l_first s then s
      else let n := Z.to_nat (k - l_first s) in
           mk_slog k (last_term (l_prev s) (firstn n (l_ents s))) (skipn n (l_ents s))
  | RTruncSuffix k =>
      if l_last s <=? k then s
      else mk_slog (l_first s) (l_prev s) (firstn (Z.to_nat (k + 1 - l_first s)) (l_ents s))
  | RReset n _ => mk_slog n 0 []
  end.

(* what a stop after n of the operation's storage writes leaves: the old log or the
   new one; a reset has a state in between, where only its prefix truncation happened *)
Definition crash_result (s : slog) (o : rop) (n : nat) : slog :=
  match n with
  | O => s
  | _ => match o with
         | RReset next dr =>
             if (l_first s <? next) && (n <=? 3)%nat then spec_op s (RTruncPrefix next dr) else spec_op s o
         | _ => spec_op s o
         end
  end.

Section Spec.
Variable c : codec.
Variable binlog : Z -> bool.

(* prewrite-binlog requests are stored apart, under their timestamp *)
Definition prewrite_ts (b : bool) (e : entry) : option (Z * list Z) :=
  match e_pay e with
  | PData d => if b then match c_req c d with
                         | Some (true, Some ts) => Some (ts, d)
                         | Some (true, None) => Some (0, d)
                         | _ => None end
               else None
  | _ => None
  end.
Definition prewrites (b : bool) (es : list entry) : list (Z * list Z) :=
  flat_map (fun e => match prewrite_ts b e with Some x => [x] | None => [] end) es.

(* entries raft may append *)
Definition entry_ok (b : bool) (e : entry) : Prop :=
  0 < e_term e < 2 ^ 63 /\
  match e_pay e with
  | PNoop => True
  | PData d => b = true -> c_req c d <> None /\ forall ts d', prewrite_ts b e = Some (ts, d') -> i64 ts
  | PConf _ old => old <> Some []
  | PUnknown _ => False
  end.
Fixpoint consecutive (i : Z) (es : list entry) : Prop :=
  match es with [] => True | e :: es' => e_index e = i /\ consecutive (i + 1) es' end.
Fixpoint terms_from (t : Z) (es : list entry) : Prop :=
  match es with [] => True | e :: es' => t <= e_term e /\ terms_from (e_term e) es' end.

Definition legal_op (b : bool) (s : slog) (o : rop) : Prop :=
  match o with
  | RAppend es => consecutive (l_last s + 1) es /\ terms_from (last_term (l_prev s) (l_ents s)) es /\
                  Forall (entry_ok b) es /\ l_last s + Z.of_nat (length es) < 2 ^ 63
  | RTruncPrefix k _ => k < 2 ^ 63
  | RTruncSuffix k => l_first s - 1 <= k
  | RReset n _ => l_first s <= n < 2 ^ 63
  end.
Definition appended (o : rop) : list entry := match o with RAppend es => es | _ => [] end.

(* all regions of a store *)
Record spec := mk_spec {
  p_log : Z -> option slog;           (* None: region never opened *)
  p_open : Z -> bool;
  p_clean : Z -> bool;                (* no stop inside an operation of this region so far *)
  p_ts : list (Z * list Z)            (* prewrite requests stored so far *)
}.
Definition init_spec : spec := mk_spec (fun _ => None) (fun _ => false) (fun _ => true) [].
Definition log_of (A : spec) (r : Z) : slog := match p_log A r with Some s => s | None => empty_log end.

Definition spec_step (A : spec) (l : label) : spec :=
  match l with
  | Open r => mk_spec (upd (p_log A) r (Some (log_of A r))) (upd (p_open A) r true) (p_clean A) (p_ts A)
  | Do r o => mk_spec (upd (p_log A) r (Some (spec_op (log_of A r) o))) (p_open A) (p_clean A)
                      (p_ts A ++ prewrites (binlog r) (appended o))
  | CrashDuring r o n =>
      mk_spec (upd (p_log A) r (Some (crash_result (log_of A r) o n))) (fun _ => false) (upd (p_clean A) r false)
              (p_ts A ++ match n with O => [] | _ => prewrites (binlog r) (appended o) end)
  | Crash => mk_spec (p_log A) (fun _ => false) (p_clean A) (p_ts A)
  | Compact _ _ => A
  end.
Definition legal_on (A : spec) (r : Z) (o : rop) : Prop :=
  p_open A r = true /\ legal_op (binlog r) (log_of A r) o /\
  (* timestamps identify prewrite requests *)
  (forall ts d d', In (ts, d) (prewrites (binlog r) (appended o)) ->
     In (ts, d') (p_ts A ++ prewrites (binlog r) (appended o)) -> d = d').
Definition legal (A : spec) (l : label) : Prop :=
  match l with
  | Open r => i64 r
  | Do r o => legal_on A r o
  | CrashDuring r o _ => legal_on A r o
  | Crash => True
  | Compact _ _ => True
  end.
Fixpoint legal_run (A : spec) (ls : list label) : Prop :=
  match ls with [] => True | l :: ls' => legal A l /\ legal_run (spec_step A l) ls' end.
Definition spec_run (A : spec) (ls : list label) : spec := fold_left spec_step ls A.

(* what protobuf must satisfy *)
Definition codec_ok : Prop :=
  (forall p o, c_parse_conf c (c_ser_conf c p o) = Some (p, o)) /\
  (forall d ots, c_req c d = Some (true, ots) ->
     c_req c (c_shrink c d) = Some (true, Some (match ots with Some ts => ts | None => 0 end))).

(* the open region r of the store answers like the log s *)
Definition answers_like (big : bool) (s : sys) (r : Z) (m : mem) (l : slog) (clean : bool) : Prop :=
  m_first m = l_first l /\ m_last m = l_last l /\
  (forall i, get_term m i = match entry_at l i with Some e => e_term e | None => 0 end) /\
  (forall i, i64 i -> l_first l <= i \/ clean = true ->
     get_entry big c (binlog r) (s_disk s) r i = entry_at l i).
Definition is_conf (e : entry) : bool := match e_pay e with PConf _ _ => true | _ => false end.
End Spec.

(* ---- the term table alone: operations against a plain list of (index, term) ---- *)
Inductive mapop := MAppend (t : Z) | MTruncPrefix (k : Z) | MTruncSuffix (k : Z) | MReset.
(* reference: first index, terms of the live entries, largest term seen so far in front *)
Record tref := mk_tref { r_first : Z; r_prev : Z; r_terms : list Z }.
Definition r_last (x : tref) : Z := r_first x + Z.of_nat (length (r_terms x)) - 1.
Definition ref_step (x : tref) (o : mapop) : tref :=
  match o with
  | MAppend t => mk_tref (r_first x) (r_prev x) (r_terms x ++ [t])
  | MTruncPrefix k => if k <=? r_first x then x else
      let n := Z.to_nat (k - r_first x) in mk_tref k (last (firstn n (r_terms x)) (r_prev x)) (skipn n (r_terms x))
  | MTruncSuffix k => if r_last x <=? k then x else
      mk_tref (r_first x) (r_prev x) (firstn (Z.to_nat (k + 1 - r_first x)) (r_terms x))
  | MReset => mk_tref (r_first x) 0 []
  end.
Definition map_legal (x : tref) (o : mapop) : Prop :=
  match o with
  | MAppend t => 0 < t /\ last (r_terms x) (r_prev x) <= t
  | MTruncSuffix k => r_first x - 1 <= k
  | _ => True
  end.
Definition map_step (q : tmap) (x : tref) (o : mapop) : option tmap :=
  match o with
  | MAppend t => tm_append q (r_last x + 1) t
  | MTruncPrefix k => Some (if k <=? r_first x then q else tm_truncate_prefix q k)
  | MTruncSuffix k => Some (tm_truncate_suffix q k)
  | MReset => Some []
  end.
Fixpoint map_run (q : tmap) (x : tref) (os : list mapop) : option (tmap * tref) :=
  match os with
  | [] => Some (q, x)
  | o :: os' => match map_step q x o with Some q' => map_run q' (ref_step x o) os' | None => None end
  end.
Fixpoint maps_legal (x : tref) (os : list mapop) : Prop :=
  match os with [] => True | o :: os' => map_legal x o /\ maps_legal (ref_step x o) os' end.
