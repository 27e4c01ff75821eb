(* What a full-text query should return, without reference to the iterators. *)
From Coq Require Import ZArith List Bool Sorted.
From Verif Require Import Common.Bytes Common.KV Rev.Model.
Import ListNotations.

Definition below (a b : key) : Prop := bcompare a b = Lt.
Definition upto (a b : key) : Prop := bcompare a b <> Gt.

(* a stored list: ascending keys, each once *)
Definition ascending (l : list node) : Prop := StronglySorted below (map nkey l).

(* the keys a region serves: from [first], before [second]; an empty bound is no bound *)
Definition in_range (first second : key) (k : key) : Prop :=
  (first = [] \/ upto first k) /\ (second = [] \/ below k second).

(* the term's entry for k: the recent list decides, the merged list otherwise *)
Definition entry_of (new old : list node) (k : key) (n : node) : Prop :=
  nkey n = k /\ (In n new \/ (In n old /\ forall m, In m new -> nkey m <> k)).

(* the documents of a term, of an AND and of an OR *)
Fixpoint matches (first second : key) (q : query) (k : key) : Prop :=
  match q with
  | QTerm new old => in_range first second k /\ exists n, entry_of new old k n /\ ndel n = false
  | QAnd qs => qs <> [] /\ (fix all l := match l with [] => True | q :: r => matches first second q k /\ all r end) qs
  | QOr qs => (fix any l := match l with [] => False | q :: r => matches first second q k \/ any r end) qs
  end.

(* the lists of a query are as stored *)
Fixpoint stored (q : query) : Prop :=
  match q with
  | QTerm new old => ascending new /\ ascending old
  | QAnd qs | QOr qs => (fix all l := match l with [] => True | q :: r => stored q /\ all r end) qs
  end.

(* no term starts with a key outside the range when the range has an end but no start *)
Fixpoint starts_inside (second : key) (q : query) : Prop :=
  match q with
  | QTerm new old =>
      second = [] \/ forall n, In n (firstn 1 new) \/ In n (firstn 1 old) -> below (nkey n) second
  | QAnd qs | QOr qs => (fix all l := match l with [] => True | q :: r => starts_inside second q /\ all r end) qs
  end.

(* an ascending list of documents read by a cursor: the list left after one call *)
Fixpoint drop_below (t : key) (ks : list key) : list key :=
  match ks with
  | [] => []
  | k :: r => if bltb k t then drop_below t r else ks
  end.
Definition after (o : op) (ks : list key) : list key :=
  match o with Next => tl ks | Adv t => drop_below t ks end.
(* the documents given to the caller by a sequence of calls on a cursor that stands on
   the head of [ks] *)
Fixpoint given (os : list op) (ks : list key) : list (option key) :=
  match os with
  | [] => []
  | o :: r => head (after o ks) :: given r (after o ks)
  end.
