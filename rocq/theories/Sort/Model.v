(* Sorting of result rows: the full sorter with its merge heap (src/runtime/sorter.cpp,
   include/runtime/sorter.h), the bounded top-n sorter (src/runtime/topn_sorter.cpp,
   include/runtime/topn_sorter.h), batches (include/runtime/row_batch.h) and the LIMIT
   node (src/exec/limit_node.cpp).  Vectors are lists, indexes natural numbers. *)
From Coq Require Import ZArith List Bool Permutation Lia.
Import ListNotations.
Local Open Scope Z_scope.

(* ---- heap stored in a vector ---- *)
Section Heap.
  Context {A : Type}.
  (* [before x y]: x belongs strictly nearer to the root than y *)
  Variable before : A -> A -> bool.

  Definition upd (i : nat) (x : A) (l : list A) : list A :=
    firstn i l ++ match skipn i l with [] => [] | _ :: t => x :: t end.

  (* std::iter_swap(begin + i, begin + j) *)
  Definition swap (i j : nat) (l : list A) : list A :=
    match nth_error l i, nth_error l j with
    | Some x, Some y => upd i y (upd j x l)
    | _, _ => l
    end.

  (* the comparison of the elements at two positions, guarded by their bounds as in
     shiftdown *)
  Definition before_at (l : list A) (i j : nat) : bool :=
    match nth_error l i, nth_error l j with Some x, Some y => before x y | _, _ => false end.

  (* Sorter::shiftdown (src/runtime/sorter.cpp:93-114) and TopNSorter::shiftdown
     (src/runtime/topn_sorter.cpp:70-91); [fuel] bounds the recursion, whose index grows *)
  Fixpoint shiftdown (fuel index : nat) (l : list A) : list A :=
    match fuel with
    | O => l
    | S f =>
        let left_index := (index * 2 + 1)%nat in
        let right_index := S left_index in
        if (length l <=? left_index)%nat then l else
        let m1 := if before_at l left_index index then left_index else index in
        let m2 := if before_at l right_index m1 then right_index else m1 in
        if (m2 =? index)%nat then l else shiftdown f m2 (swap m2 index l)
    end.

  (* TopNSorter::shiftup (src/runtime/topn_sorter.cpp:93-103) *)
  Fixpoint shiftup (fuel index : nat) (l : list A) : list A :=
    match fuel with
    | O => l
    | S f =>
        match index with
        | O => l
        | S _ =>
            let parent := ((index - 1) / 2)%nat in
            if before_at l index parent then shiftup f parent (swap index parent l) else l
        end
    end.

  (* Sorter::make_heap (src/runtime/sorter.cpp:73-77): from size/2 - 1 down to 0 *)
  Fixpoint make_heap_from (i : nat) (l : list A) : list A :=
    match i with
    | O => l
    | S i' => make_heap_from i' (shiftdown (length l) i' l)
    end.
  Definition make_heap (l : list A) : list A := make_heap_from (length l / 2) l.
End Heap.

(* std::sort: some permutation of the input without inversions; which one is unspecified
   when the order does not decide *)
Definition std_sort {A} (less : A -> A -> bool) (l l' : list A) : Prop :=
  Permutation l l' /\
  forall i j x y, (i < j)%nat -> nth_error l' i = Some x -> nth_error l' j = Some y -> less y x = false.

Section Sorters.
  Context {A : Type}.
  (* MemRowCompare::compare, and need_not_compare (include/mem_row/mem_row_compare.h:31-33) *)
  Variable compare : A -> A -> Z.
  Variable need_not_compare : bool.

  (* include/mem_row/mem_row_compare.h:36-38 *)
  Definition less (x y : A) : bool := compare x y <? 0.

  (* ---- TopNSorter ---- *)

  (* TopNHeapItem (include/runtime/topn_sorter.h:27-30): row, index *)
  Definition item := (A * Z)%type.

  (* TopNSorter::get_less_func (include/runtime/topn_sorter.h:43-54) *)
  Definition item_less (l r : item) : bool :=
    let comp := compare (fst l) (fst r) in
    if comp <? 0 then true
    else if (comp =? 0) && (snd l <? snd r) then true
    else false.
  (* the heap keeps its greatest item at the root *)
  Definition item_before (x y : item) : bool := item_less y x.

  (* _mem_row_heap and _current_idx; _current_count is the size of the heap *)
  Record topn := { heap : list item; current_idx : Z }.
  Definition topn_init : topn := {| heap := []; current_idx := 0 |}.

  (* one turn of TopNSorter::add_batch (src/runtime/topn_sorter.cpp:25-45); None: heap[0]
     of an empty heap *)
  Definition topn_add (limit : Z) (s : topn) (row : A) : option topn :=
    let idx := current_idx s + 1 in
    let n := length (heap s) in
    if Z.of_nat n <? limit then
      let h := heap s ++ [(row, idx)] in
      Some {| heap := if need_not_compare then h else shiftup item_before (S n) n h;
              current_idx := idx |}
    else if need_not_compare then Some {| heap := heap s; current_idx := idx |}
    else
      match heap s with
      | [] => None
      | top :: rest =>
          if less row (fst top) then
            Some {| heap := shiftdown item_before n 0 ((row, idx) :: rest); current_idx := idx |}
          else Some {| heap := heap s; current_idx := idx |}
      end.

  Fixpoint topn_add_all (limit : Z) (s : topn) (rows : list A) : option topn :=
    match rows with
    | [] => Some s
    | r :: rows' =>
        match topn_add limit s r with Some s' => topn_add_all limit s' rows' | None => None end
    end.

  (* sort() then get_next until eos (src/runtime/topn_sorter.cpp:47-68): the rows of the
     sorted vector; [out] is a possible output for the batches [rows] *)
  Definition topn_output (limit : Z) (rows out : list A) : Prop :=
    exists s v, topn_add_all limit topn_init rows = Some s /\
      (if need_not_compare then v = heap s else std_sort item_less (heap s) v) /\
      out = map fst v.

  (* ---- Sorter ---- *)

  (* a batch being read: current row and the rows after it.  Callers add only non-empty
     batches (src/exec/sort_node.cpp:334-336, src/exec/select_manager_node.cpp:295, 538,
     src/exec/union_node.cpp:101) *)
  Definition batch := (A * list A)%type.
  Definition batch_rows (b : batch) : list A := fst b :: snd b.
  Definition batch_before (x y : batch) : bool := less (fst x) (fst y).

  (* Sorter::merge_sort (src/runtime/sorter.cpp:65-72) *)
  Definition merge_sort (h : list batch) : list batch :=
    if need_not_compare then h
    else if (1 <? length h)%nat then make_heap batch_before h else h.

  (* Sorter::sort (src/runtime/sorter.cpp:54-64) with multi_sort (79-91) and RowBatch::sort
     (include/runtime/row_batch.h:113-116); each batch is sorted by its own thread *)
  Definition sort_batches (h h' : list batch) : Prop :=
    Forall2 (fun b b' => std_sort less (batch_rows b) (batch_rows b')) h h'.
  Definition sorter_sort (h h2 : list batch) : Prop :=
    if need_not_compare then h2 = h
    else exists h', sort_batches h h' /\
         h2 = (if (1 <? length h)%nat then make_heap batch_before h' else h').

  (* one row of Sorter::get_next (src/runtime/sorter.cpp:39-50) *)
  Definition pop (h : list batch) : option (A * list batch) :=
    match h with
    | [] => None
    | (r, []) :: t =>
        (* iter_swap of first and last, pop_back, shiftdown *)
        let h' := match rev t with [] => [] | lastb :: _ => lastb :: removelast t end in
        Some (r, match h' with [] => [] | _ => shiftdown batch_before (length h') 0 h' end)
    | (r, r2 :: b) :: t =>
        let h' := (r2, b) :: t in
        Some (r, shiftdown batch_before (length h') 0 h')
    end.

  (* Sorter::get_next (src/runtime/sorter.cpp:18-53) into a batch with room for [cap]
     rows: rows, eos, heap afterwards *)
  Fixpoint take_rows (cap : nat) (h : list batch) : list A * bool * list batch :=
    match cap with
    | O => ([], false, h)
    | S c =>
        match pop h with
        | None => ([], true, h)
        | Some (r, h') =>
            let '(rows, eos, h2) := take_rows c h' in (r :: rows, eos, h2)
        end
    end.

  (* without ordering, get_next hands out the batches one by one (22-30); the heap here is
     the batches from _idx on *)
  Definition get_next (cap : nat) (h : list batch) : list A * bool * list batch :=
    match h with
    | [] => ([], true, [])
    | b :: t =>
        if need_not_compare then
          (batch_rows b, match t with [] => true | _ => false end, t)
        else take_rows cap h
    end.

  (* calls with the given room, until eos *)
  Fixpoint get_all (caps : list nat) (h : list batch) : list A * bool * list batch :=
    match caps with
    | [] => ([], false, h)
    | c :: cs =>
        let '(rows, eos, h') := get_next c h in
        if eos then (rows, true, h')
        else let '(rows', eos', h2) := get_all cs h' in (rows ++ rows', eos', h2)
    end.
End Sorters.

(* ---- LIMIT ---- *)
Section Limit.
  Context {A : Type}.
  (* _num_rows_skipped, _num_rows_returned, and what the child has still to return: the
     batches of its next calls; after the last one its eos is set *)
  Record lstate := { skipped : Z; returned : Z; child : list (list A) }.

  (* ExecNode::reached_limit (include/exec/exec_node.h:311-313) *)
  Definition reached_limit (limit n : Z) : bool := negb (limit =? -1) && (limit <=? n).

  (* a call of the child: batch and eos; past its end it returns nothing and eos *)
  Definition child_next (c : list (list A)) : list A * bool * list (list A) :=
    match c with
    | [] => ([], true, [])
    | [b] => (b, true, [])
    | b :: t => (b, false, t)
    end.

  (* RowBatch::skip_rows and keep_first_rows (include/runtime/row_batch.h:64-89) *)
  Definition skip_rows (n : Z) (b : list A) : list A :=
    if n <=? 0 then b
    else if Z.of_nat (length b) <=? n then [] else skipn (Z.to_nat n) b.
  Definition keep_first_rows (n : Z) (b : list A) : list A :=
    if Z.of_nat (length b) <=? n then b
    else if n <=? 0 then [] else firstn (Z.to_nat n) b.

  (* the while loop of LimitNode::get_next (src/exec/limit_node.cpp:150-169): the batch
     being read, eos, and what is left; the flag says that the function returned inside *)
  Fixpoint skip_loop (fuel : nat) (offset skip : Z) (b : list A) (eos : bool) (c : list (list A))
    : list A * bool * bool * Z * list (list A) :=
    match fuel with
    | O => (b, eos, false, skip, c)
    | S f =>
        if negb (skip <? offset) then (b, eos, false, skip, c)
        else if skip + Z.of_nat (length b) <=? offset then
          let skip' := skip + Z.of_nat (length b) in
          if eos then ([], eos, true, skip', c)
          else let '(b', eos', c') := child_next c in skip_loop f offset skip' b' eos' c'
        else (skip_rows (offset - skip) b, eos, false, offset, c)
    end.

  (* LimitNode::get_next (src/exec/limit_node.cpp:134-179): rows, eos, new state *)
  Definition limit_next (limit offset : Z) (s : lstate) : list A * bool * lstate :=
    if reached_limit limit (returned s) then ([], true, s) else
    let '(b0, eos0, c0) := child_next (child s) in
    let '(b, eos, ret, skip, c) := skip_loop (S (length (child s))) offset (skipped s) b0 eos0 c0 in
    if ret then (b, eos, {| skipped := skip; returned := returned s; child := c |}) else
    let n := returned s + Z.of_nat (length b) in
    if reached_limit limit n then
      (keep_first_rows (Z.of_nat (length b) - (n - limit)) b, true,
       {| skipped := skip; returned := limit; child := c |})
    else (b, eos, {| skipped := skip; returned := n; child := c |}).

  (* the rows a reader gets by calling until eos, in at most [fuel] calls *)
  Fixpoint limit_all (fuel : nat) (limit offset : Z) (s : lstate) : list A * bool :=
    match fuel with
    | O => ([], false)
    | S f =>
        let '(b, eos, s') := limit_next limit offset s in
        if eos then (b, true)
        else let '(rest, e) := limit_all f limit offset s' in (b ++ rest, e)
    end.
End Limit.
