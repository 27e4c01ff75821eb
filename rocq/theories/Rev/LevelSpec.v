(* What a full-text index should answer, without levels: the writes in order of commit,
   and per term how many of them have become visible. *)
From Coq Require Import ZArith List Bool Sorted.
From Verif Require Import Common.Bytes Common.KV Rev.Model Rev.Spec Rev.LevelModel.
Import ListNotations.
Local Open Scope nat_scope.

(* is the document in the index of the term after these writes: its last entry decides *)
Definition concerns (t : term) (pk : key) (w : wr) : bool := beqb (w_term w) t && beqb (w_pk w) pk.
Definition holds (ws : list wr) (t : term) (pk : key) : bool :=
  fold_left (fun b w => if concerns t pk w then negb (w_del w) else b) ws false.

(* all writes so far, how many there were when the running pass began, and how many a
   reader of a term sees *)
Record story := Story { all : list wr; began : nat; shown : term -> nat }.
Definition story0 : story := Story [] 0 (fun _ => 0).
Definition tell (h : story) (e : event) : story :=
  match e with
  | Write ws => Story (all h ++ ws) (began h) (shown h)
  | Begin => Story (all h) (length (all h)) (shown h)
  | To2 t => Story (all h) (began h) (fun u => if beqb u t then began h else shown h u)
  | End => Story (all h) (began h) (fun _ => began h)
  | _ => h
  end.
Definition told (es : list event) : story := fold_left tell es story0.
Definition visible (h : story) (t : term) : list wr := firstn (shown h t) (all h).

(* a term: bytes other than NUL, and not starting with eight bytes 0xFF *)
Definition plain (t : term) : Prop := Forall (fun b => (0 < b < 256)%Z) t /\ below t bound.

(* primary keys: none is the beginning of another *)
Definition separate (p q : key) : Prop := forall r, q = p ++ r -> r = [].

(* the clock, read for each entry: not back within a transaction, forward between
   transactions that write the same document's entry for a term.  Time is an int64_t. *)
Definition same_entry (v w : wr) : Prop := w_term v = w_term w /\ w_pk v = w_pk w.
Definition time_ok (w : wr) : Prop := (-9223372036854775808 <= w_time w <= 9223372036854775807)%Z.

(* histories of a region that is only ever split: every write is plain, separate from the
   others and later, and the range never grows *)
Fixpoint orderly (old : list wr) (rg : key * key) (es : list event) : Prop :=
  match es with
  | [] => True
  | Write ws :: r =>
      Forall (fun w => plain (w_term w) /\ time_ok w) ws /\
      (forall v w, In v (old ++ ws) -> In w (old ++ ws) -> separate (w_pk v) (w_pk w)) /\
      (forall v w, In v old -> In w ws -> same_entry v w -> (w_time v < w_time w)%Z) /\
      ForallOrdPairs (fun v w => same_entry v w -> (w_time v <= w_time w)%Z) ws /\
      orderly (old ++ ws) rg r
  | Range rg' :: r =>
      (forall k, in_range (fst rg') (snd rg') k -> in_range (fst rg) (snd rg) k) /\ orderly old rg' r
  | _ :: r => orderly old rg r
  end.

(* histories that the level-3 cache survives: a list is put into the cache only while it
   is still the one on disk, and no pass gives up after it has changed a level-3 list *)
Fixpoint calm (c : config) (s : index) (es : list event) : Prop :=
  match es with
  | [] => True
  | e :: r =>
      match e with
      | Keep t l => kget t (lv3 (i_lv s)) = Some l
      | Fail => m_pass (i_mem s) = None \/ m_stale (i_mem s) = []
      | _ => True
      end /\ forall s', next c s e = Some s' -> calm c s' r
  end.

(* an index just created, with nothing in it *)
Definition empty_index (rg : key * key) : index := Index (Levels [] [] []) rg mem0.

(* the documents a query asks for when [yes] says which document has which term *)
Fixpoint satisfies (yes : term -> bool) (f : formula) : Prop :=
  match f with
  | Has t => yes t = true
  | AllOf fs => fs <> [] /\ (fix all l := match l with [] => True | g :: r => satisfies yes g /\ all r end) fs
  | AnyOf fs => (fix any l := match l with [] => False | g :: r => satisfies yes g \/ any r end) fs
  end.

(* all the entries written by a history *)
Definition written (es : list event) : list wr := concat (map (fun e => match e with Write ws => ws | _ => [] end) es).
