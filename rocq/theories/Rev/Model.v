(* Full-text search over posting lists: the iterator over a term's recent and merged
   lists (include/reverse/reverse_interface.hpp), and the tree of term, AND and OR
   executors (include/reverse/boolean_engine/boolean_executor.h and .hpp,
   src/reverse/boolean_executor.cpp, src/reverse/reverse_index.cpp).

   Keys (encoded primary keys) are byte strings compared like std::string.  A node keeps
   its key and whether it is a delete mark; weights, terms and the merge functions that
   combine weights are left out: they never change a key or a delete mark.  Pointers to
   nodes become values; with protobuf lists every node has its own storage and its key
   is never written after the list is built.  Arrow lists, whose nodes share one buffer,
   are in Rev/Arrow.v.  Loops carry a count of rounds computed from the state; running
   out of rounds, and reading through a null pointer or past a list, give [None]. *)
From Coq Require Import ZArith List Bool Lia.
From Verif Require Import Common.Bytes Common.KV Sort.Model.
Import ListNotations.

Definition key := list Z.

(* pb::CommonReverseNode (proto/reverse.proto): key and flag; [ndel] is
   flag() == REVERSE_NODE_DELETE *)
Record node := Node { nkey : key; ndel : bool }.

Notation "'let*' x ':=' a 'in' b" := (match a with Some x => b | None => None end)
  (at level 200, x pattern, a at level 100, b at level 200, only parsing).

(* ---- the iterator over one term's lists ---- *)

(* CommRindexNodeParser (include/reverse/reverse_interface.h, fields _new_list,
   _old_list, _key_range, _curr_ix_new, _curr_ix_old, _cmp_res, _curr_node).  An absent
   list is empty; an index of -1 is [None]; list sizes are those of the lists, which fit
   int32_t.  [pcur] = None is _curr_node == nullptr. *)
Record parser := Parser {
  pnew : list node; pold : list node;
  pfirst : key; psecond : key;
  pixn : option nat; pixo : option nat;
  pcmp : comparison;
  pcur : option node }.

Definition key_at (l : list node) (i : nat) : option key := option_map nkey (nth_error l i).

(* the comparison of the two current keys and the node chosen (reverse_interface.hpp
   131-149 in next, 211-231 in advance) *)
Definition choose (p : parser) (ixn ixo : option nat) : option parser :=
  let fin cmp n :=
    let cur := if negb (match psecond p with [] => true | _ => false end) && bleb (psecond p) (nkey n)
               then None else Some n in
    Some (Parser (pnew p) (pold p) (pfirst p) (psecond p) ixn ixo cmp cur) in
  match ixn, ixo with
  | Some i, Some j =>
      let* a := nth_error (pnew p) i in
      let* b := nth_error (pold p) j in
      match bcompare (nkey a) (nkey b) with
      | Gt => fin Gt b
      | c => fin c a
      end
  | Some i, None => let* a := nth_error (pnew p) i in fin Lt a
  | None, Some j => let* b := nth_error (pold p) j in fin Gt b
  | None, None =>
      Some (Parser (pnew p) (pold p) (pfirst p) (psecond p) None None (pcmp p) None)
  end.

(* _curr_ix_new++ : from -1 the index becomes 0 *)
Definition incr (ix : option nat) : option nat :=
  match ix with Some i => Some (S i) | None => Some O end.
(* lines 120-130: past the end becomes -1 *)
Definition clip (l : list node) (ix : option nat) : option nat :=
  match ix with Some i => if (i <? length l)%nat then Some i else None | None => None end.

(* next (reverse_interface.hpp 106-152) *)
Definition p_next (p : parser) : option parser :=
  match pcur p with
  | None => Some p
  | Some _ =>
      let ixn := match pcmp p with Lt | Eq => incr (pixn p) | Gt => pixn p end in
      let ixo := match pcmp p with Gt | Eq => incr (pixo p) | Lt => pixo p end in
      choose p (clip (pnew p) ixn) (clip (pold p) ixo)
  end.

(* the widening loop of binary_search (lines 163-168); j < 2^31 because list sizes are,
   so j <<= 1 does not wrap *)
Fixpoint gallop (rounds : nat) (target : key) (l : list node) (first off j : nat) : option nat :=
  match rounds with
  | O => None
  | S r =>
      if (j <=? off)%nat then
        let* k := key_at l (first + j) in
        if bltb k target then gallop r target l first off (j * 2) else Some j
      else Some j
  end.

(* the bisection (lines 176-188) *)
Fixpoint bisect (rounds : nat) (target : key) (l : list node) (first last : nat) : option nat :=
  match rounds with
  | O => None
  | S r =>
      if (first <? last)%nat then
        let mid := (first + (last - first) / 2)%nat in
        let* k := key_at l mid in
        match bcompare target k with
        | Lt => bisect r target l first mid
        | Gt => bisect r target l (S mid) last
        | Eq => Some mid
        end
      else Some first
  end.

(* binary_search (lines 154-189); the inner None is the returned -1 *)
Definition binary_search (first last : nat) (target : key) (l : list node) : option (option nat) :=
  if (last <? first)%nat then Some None else
  let off := (last - first)%nat in
  let* j := gallop (off + 2) target l first off 1 in
  let last' := (first + Nat.min j off)%nat in
  let first' := (first + j / 2)%nat in
  let* k := key_at l last' in
  if bltb k target then Some None else
  let* i := bisect (length l + 1) target l first' last' in
  Some (Some i).

Definition search_from (ix : option nat) (target : key) (l : list node) : option (option nat) :=
  match ix with
  | None => Some None
  | Some i => binary_search i (length l - 1) target l
  end.

(* advance (lines 191-233) *)
Definition p_advance (p : parser) (target : key) : option parser :=
  match pcur p with
  | None => Some p
  | Some _ =>
      let* ixn := search_from (pixn p) target (pnew p) in
      let* ixo := search_from (pixo p) target (pold p) in
      choose p ixn ixo
  end.

(* _init (lines 31-69): the first node is chosen without looking at the end of the range *)
Definition p_init (new old : list node) (first second : key) : option parser :=
  let ixn := match new with [] => None | _ => Some O end in
  let ixo := match old with [] => None | _ => Some O end in
  let '(cmp, cur) :=
    match new, old with
    | a :: _, b :: _ => (bcompare (nkey a) (nkey b),
                         match bcompare (nkey a) (nkey b) with Gt => Some b | _ => Some a end)
    | a :: _, [] => (Lt, Some a)
    | [], b :: _ => (Gt, Some b)
    | [], [] => (Gt, None)
    end in
  let p := Parser new old first second ixn ixo cmp cur in
  match first with [] => Some p | _ => p_advance p first end.

(* ---- executors ---- *)

(* TermBooleanExecutor, AndBooleanExecutor, OrBooleanExecutor (boolean_executor.h
   100-211): _init_flag, _is_null_flag, the current node or key and the sub-clauses.
   WeightedBooleanExecutor is left out: no query builds one. *)
Inductive exec :=
| Term (init : bool) (p : parser) (cur : option node)
| And (init null : bool) (cur : key) (subs : list exec)
| Or (init null : bool) (cur : key) (subs : list exec).

(* current_id (boolean_executor.hpp 65-71, boolean_executor.cpp 45-50, 163-168) *)
Definition current_id (e : exec) : option key :=
  match e with
  | Term _ _ cur => option_map nkey cur
  | And _ null c _ | Or _ null c _ => if null then None else Some c
  end.

(* TermBooleanExecutor::next (boolean_executor.hpp 73-97); Schema::filter is always
   false for the schema in use *)
Fixpoint term_next (rounds : nat) (init : bool) (p : parser) : option exec :=
  match rounds with
  | O => None
  | S r =>
      let* p1 := (if init then Some p else p_next p) in
      match pcur p1 with
      | None => Some (Term false p1 None)
      | Some n => if ndel n then term_next r false p1 else Some (Term false p1 (Some n))
      end
  end.
Definition term_rounds (p : parser) : nat := S (S (length (pnew p) + length (pold p))).

(* TermBooleanExecutor::advance (lines 99-126) *)
Definition term_advance (p : parser) (cur : option node) (target : key) : option exec :=
  match cur with
  | None => Some (Term false p None)
  | Some n =>
      if bleb target (nkey n) then Some (Term false p cur) else
      let* p1 := p_advance p target in
      match pcur p1 with
      | None => Some (Term false p1 None)
      | Some n1 => if ndel n1 then term_next (term_rounds p1) false p1 else Some (Term false p1 (Some n1))
      end
  end.

(* CompareAsc (boolean_executor.h 100-118): an exhausted executor is last *)
Definition before (a b : exec) : bool :=
  match current_id a, current_id b with
  | None, _ => false
  | Some _, None => true
  | Some x, Some y => bltb x y
  end.

(* OrBooleanExecutor::shiftdown and make_heap (boolean_executor.cpp 254-280), the same
   algorithm as Sorter::shiftdown and Sorter::make_heap *)
Definition or_shiftdown (i : nat) (l : list exec) : list exec := shiftdown before (length l) i l.
Definition or_make_heap (l : list exec) : list exec := make_heap before l.

Inductive op := Next | Adv (target : key).

(* all keys in the lists below an executor; only counts rounds *)
Fixpoint univ (e : exec) : list key :=
  match e with
  | Term _ p _ => map nkey (pnew p) ++ map nkey (pold p)
  | And _ _ _ subs | Or _ _ _ subs => flat_map univ subs
  end.

Section Ops.
  (* the operation on a sub-clause *)
  Variable sub : op -> exec -> option exec.

  (* the operation on the sub-clause at position i *)
  Definition at_pos (o : op) (i : nat) (subs : list exec) : option (list exec) :=
    let* s := nth_error subs i in
    let* s' := sub o s in
    Some (upd i s' subs).

  (* the loop of AndBooleanExecutor::find_next (boolean_executor.cpp 102-135): [c] is
     *_curr_id_ptr, the current key of the pivot.  The key kept at the end is that of
     sub-clause 0 (lines 122-129). *)
  Fixpoint and_loop (rounds : nat) (c : key) (pivot forward : nat) (subs : list exec) : option (bool * key * list exec) :=
    match rounds with
    | O => None
    | S r =>
        let done subs' :=
          let* f := nth_error subs' forward in
          match current_id f with
          | None => Some (true, c, subs')
          | Some _ =>
              let* s0 := nth_error subs' O in
              let* c0 := current_id s0 in
              Some (false, c0, subs')
          end in
        if (forward =? pivot)%nat then done subs else
        let* subs' := at_pos (Adv c) forward subs in
        let* f := nth_error subs' forward in
        match current_id f with
        | None => done subs'
        | Some c' =>
            let '(c2, pivot2) := if beqb c' c then (c, pivot) else (c', forward) in
            let forward2 := if (forward =? length subs - 1)%nat then O else S forward in
            and_loop r c2 pivot2 forward2 subs'
        end
    end.

  (* AndBooleanExecutor::find_next (93-136) *)
  Definition and_find (c : key) (subs : list exec) : option exec :=
    let pivot := (length subs - 1)%nat in
    let* s := nth_error subs pivot in
    match current_id s with
    | None => Some (And false true c subs)
    | Some c' =>
        let* (null, c2, subs') := and_loop (S (length (flat_map univ subs)) * length subs) c' pivot O subs in
        Some (And false null c2 subs')
    end.

  (* the first calls on all sub-clauses (lines 59-64, 79-84), stopping at the first
     exhausted one; true = all have a current node *)
  Fixpoint all_subs (o : op) (subs : list exec) : option (bool * list exec) :=
    match subs with
    | [] => Some (true, [])
    | s :: r =>
        let* s' := sub o s in
        match current_id s' with
        | None => Some (false, s' :: r)
        | Some _ => let* (b, r') := all_subs o r in Some (b, s' :: r')
        end
    end.

  (* AndBooleanExecutor::next (52-69) and advance (71-91) *)
  Definition and_step (o : op) (init null : bool) (c : key) (subs : list exec) : option exec :=
    if match subs with [] => true | _ => false end || null then Some (And init true c subs) else
    if init then
      let* (b, subs') := all_subs o subs in
      if b then and_find c subs' else Some (And false true c subs')
    else
      match o with
      | Next => let* subs' := at_pos Next (length subs - 1) subs in and_find c subs'
      | Adv t =>
          if bleb t c then Some (And init null c subs) else
          let* subs' := at_pos (Adv t) (length subs - 1) subs in and_find c subs'
      end.

  (* the merging loops of OrBooleanExecutor::find_next (228-237, 240-249) for heap
     position i *)
  Fixpoint or_skip (rounds : nat) (c : key) (i : nat) (subs : list exec) : option (list exec) :=
    match rounds with
    | O => Some subs
    | S r =>
        let* s := nth_error subs i in
        match current_id s with
        | Some c' =>
            if beqb c' c then
              let* subs' := at_pos Next i subs in or_skip r c i (or_shiftdown i subs')
            else Some subs
        | None => Some subs
        end
    end.

  (* OrBooleanExecutor::find_next (208-252) *)
  Definition or_find (c : key) (subs : list exec) : option exec :=
    let* s := nth_error subs O in
    match current_id s with
    | None => Some (Or false true c subs)
    | Some c' =>
        let* s1 := (if (1 <? length subs)%nat then or_skip (length subs) c' 1 subs else Some subs) in
        let* s2 := (if (2 <? length s1)%nat then or_skip (length s1) c' 2 s1 else Some s1) in
        Some (Or false false c' s2)
    end.

  Fixpoint each (o : op) (subs : list exec) : option (list exec) :=
    match subs with
    | [] => Some []
    | s :: r => let* s' := sub o s in let* r' := each o r in Some (s' :: r')
    end.

  (* the loop of OrBooleanExecutor::advance (201-204) *)
  Fixpoint or_adv (rounds : nat) (t : key) (subs : list exec) : option (list exec) :=
    match rounds with
    | O => None
    | S r =>
        let* s := nth_error subs O in
        match current_id s with
        | Some c =>
            if bltb c t then
              let* subs' := at_pos (Adv t) 0 subs in or_adv r t (or_shiftdown 0 subs')
            else Some subs
        | None => Some subs
        end
    end.

  (* OrBooleanExecutor::next (170-187) and advance (189-206); advance before the first
     next leaves the sub-clauses as they are *)
  Definition or_step (o : op) (init null : bool) (c : key) (subs : list exec) : option exec :=
    if match subs with [] => true | _ => false end || null then Some (Or init true c subs) else
    match o with
    | Next =>
        if init then let* subs' := each Next subs in or_find c (or_make_heap subs')
        else let* subs' := at_pos Next 0 subs in or_find c (or_shiftdown 0 subs')
    | Adv t =>
        if negb init && bleb t c then Some (Or init null c subs) else
        let* subs' := or_adv (S (length subs)) t subs in or_find c subs'
    end.
End Ops.

(* a virtual call of next or advance; [depth] bounds the height of the tree *)
Fixpoint step (depth : nat) (o : op) (e : exec) : option exec :=
  match depth with
  | O => None
  | S d =>
      match e with
      | Term init p cur =>
          match o with
          | Next => term_next (term_rounds p) init p
          | Adv t => term_advance p cur t
          end
      | And init null c subs => and_step (step d) o init null c subs
      | Or init null c subs => or_step (step d) o init null c subs
      end
  end.

Fixpoint height (e : exec) : nat :=
  match e with
  | Term _ _ _ => 1
  | And _ _ _ subs | Or _ _ _ subs => S (fold_right (fun s m => Nat.max (height s) m) 0%nat subs)
  end.

Definition call (o : op) (e : exec) : option exec := step (height e) o e.

(* a caller's sequence of calls and the keys it is given *)
Fixpoint calls (os : list op) (e : exec) : option (list (option key)) :=
  match os with
  | [] => Some []
  | o :: r => let* e' := call o e in let* rs := calls r e' in Some (current_id e' :: rs)
  end.

(* ReverseIndex::valid and get_next (include/reverse/reverse_index.hpp): next until it
   returns null *)
Fixpoint read_all (rounds : nat) (e : exec) : option (list key) :=
  match rounds with
  | O => None
  | S r =>
      let* e' := call Next e in
      match current_id e' with
      | None => Some []
      | Some k => let* ks := read_all r e' in Some (k :: ks)
      end
  end.

(* ---- building the tree ---- *)

(* a query after segmentation: the lists of each term, combined.  The tree has the shape
   of the query (include/reverse/boolean_engine/logical_query.hpp 22-118,
   src/reverse/reverse_index.cpp 96-136); a sub-query without any term is dropped before
   that and has no counterpart here *)
Inductive query :=
| QTerm (new old : list node)
| QAnd (qs : list query)
| QOr (qs : list query).

(* parse_executor_node, parse_term_node, parse_op_node, and_or_add_subnode,
   init_operator_executor; the fields are those of the constructors
   (boolean_executor.cpp 23-31, 141-148) *)
Fixpoint build (first second : key) (q : query) : option exec :=
  let fix builds qs :=
    match qs with
    | [] => Some []
    | q :: r => let* e := build first second q in let* es := builds r in Some (e :: es)
    end in
  match q with
  | QTerm new old => let* p := p_init new old first second in Some (Term true p None)
  | QAnd qs => let* es := builds qs in Some (And true false [] es)
  | QOr qs => let* es := builds qs in Some (Or true false [] es)
  end.
