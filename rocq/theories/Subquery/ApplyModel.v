(* Subqueries that refer to the outer query: src/exec/apply_node.cpp:198-694 and the parts of
   src/exec/joiner.cpp it uses.  Rows, conditions and hash keys are those of Join/Model.v.

   Not modelled: vectorized execution, EXPLAIN, memory accounting. *)
From Coq Require Import List ZArith Bool Arith Sorting.Permutation.
From Verif Require Import Common.Bytes Common.KV Key.Model Key.Spec Join.Model Subquery.Spec Subquery.Model.
Import ListNotations.

Inductive atype := ASemi | AAnti | ALeft.
(* [ap_one_row]: _max_one_row after decorrelate() and check_unique_key() (198-215);
   [ap_has_agg]: _conditions_has_agg; [ap_parent]: the limit of the parent node, if positive *)
Record apply := Apply { ap_size : nat; ap_type : atype; ap_outer : list nat; ap_inner : list nat; ap_conds : list jcond;
                        ap_limit : option nat; ap_parent : option nat; ap_one_row : bool; ap_has_agg : bool }.

Section Exec.
Variables (n : nat) (oids iids : list nat) (jt : atype) (cs : list jcond) (limit : option nat) (one_row : bool) (cap : nat).

(* joiner.cpp:633-685 construct_result_batch: the batch and whether the rows match *)
Definition construct_result_batch (use_hash : bool) (b : list row) (o i : row) : list row * bool :=
  let r := result_row n oids iids o i in
  match jt with
  | ASemi => if is_satisfy_filter cs r then (b ++ [r], true) else (b, false)
  | ALeft => if is_satisfy_filter cs r then (b ++ [r], true)
             else if use_hash then (b ++ [null_row n oids o], false) else (b, false)
  | AAnti => (b, is_satisfy_filter cs r)
  end.

(* What a call of get_next answers: a batch, eos and the state; or the statement fails *)
Inductive answer (A : Type) := Batch (b : list row) (eos : bool) (s : A) | Fail.
Arguments Batch {A}. Arguments Fail {A}.

(* apply_node.cpp:441-501 get_next_for_nested_loop_join: the loop over the inner rows *)
Fixpoint nested_inner (o : row) (is b : list row) (cnt : nat) (has_matched : bool) : progress (list row) :=
  match is with
  | [] => Used b cnt has_matched
  | i :: q =>
      if reached_limit limit cnt then Limit b
      else if is_full cap b then Full b cnt is
      else
        let (b', m) := construct_result_batch false b o i in
        let cnt' := match jt with AAnti => cnt | _ => if m then S cnt else cnt end in
        let hm := has_matched || m in
        match jt with
        | ASemi | AAnti => if hm then Used b' cnt' hm else nested_inner o q b' cnt' hm
        | ALeft => nested_inner o q b' cnt' hm
        end
  end.
(* 392-439 fetcher_inner_table_data: [fetch o] are the rows of the inner node with the columns of
   [o] put in and the condition (inner columns) IN (columns of o) *)
Definition fetch_checked (fetch : row -> list row) (o : row) : option (list row) :=
  let rows := fetch o in if one_row && (1 <? length rows)%nat then None else Some rows.
(* the rest of _outer_tuple_data, the rest of _inner_tuple_data, _num_rows_returned *)
Fixpoint nested_loop (fetch : row -> list row) (os is b : list row) (cnt : nat) : answer (list row * list row * nat) :=
  match os with
  | [] => Batch b true ([], [], cnt)
  | o :: q =>
      match (match is with [] => fetch_checked fetch o | _ => Some is end) with
      | None => Fail
      | Some rows =>
          match nested_inner o rows b cnt false with
          | Used b' cnt' m =>
              if m then nested_loop fetch q [] b' cnt'
              else match jt with
                   | AAnti | ALeft => nested_loop fetch q [] (b' ++ [null_row n oids o]) (S cnt')
                   | ASemi => nested_loop fetch q [] b' cnt'
                   end
          | Limit b' => Batch b' true (os, rows, cnt)
          | Full b' cnt' rest => Batch b' false (os, rest, cnt')
          end
      end
  end.

(* 503-569 get_next_via_inner_hash_map: the rows of a bucket from _result_row_index on *)
Fixpoint inner_map_bucket (o : row) (ms : list row) (idx : nat) (b : list row) (cnt : nat) (has_matched : bool) : progress nat :=
  match ms with
  | [] => Used b cnt has_matched
  | m :: q =>
      if reached_limit limit cnt then Limit b
      else if is_full cap b then Full b cnt idx
      else
        let (b', x) := construct_result_batch true b o m in
        let hm := has_matched || x in
        match jt with
        | AAnti => if x then Used b' cnt hm else inner_map_bucket o q (S idx) b' cnt hm
        | _ => inner_map_bucket o q (S idx) b' (if x then S cnt else cnt) hm
        end
  end.
Fixpoint inner_map_loop (seek : row -> list row) (os : list row) (idx : nat) (b : list row) (cnt : nat) : answer (list row * nat * nat) :=
  match os with
  | [] => Batch b true ([], O, cnt)
  | o :: q =>
      match seek o with
      | [] =>
          if reached_limit limit cnt then Batch b true (os, idx, cnt)
          else if is_full cap b then Batch b false (os, idx, cnt)
          else inner_map_loop seek q 0 (b ++ [null_row n oids o]) (S cnt)
      | ms =>
          match inner_map_bucket o (skipn idx ms) idx b cnt false with
          | Used b' cnt' m =>
              if m then inner_map_loop seek q 0 b' cnt'
              else inner_map_loop seek q 0 (b' ++ [null_row n oids o]) (S cnt')
          | Limit b' => Batch b' true (os, idx, cnt)
          | Full b' cnt' idx' => Batch b' false (os, idx', cnt')
          end
      end
  end.

(* _hash_map: the rows of a key; none if the key is not there *)
Definition hashmap := list Z -> list row.
Definition update_map (m : hashmap) (k : list Z) (l : list row) : hashmap := fun k' => if beqb k k' then l else m k'.
(* 571-627 get_next_via_outer_hash_map: the outer rows of a bucket; [kept] have been tried and
   stay, a row that matches in a semi join is erased *)
Fixpoint outer_map_bucket (i : row) (ms kept b : list row) (cnt : nat) : progress (list row) * list row :=
  match ms with
  | [] => (Used b cnt true, kept)
  | m :: q =>
      if reached_limit limit cnt then (Limit b, kept ++ ms)
      else if is_full cap b then (Full b cnt (kept ++ ms), kept ++ ms)
      else
        let (b', x) := construct_result_batch true b m i in
        match x, jt with
        | true, ASemi => outer_map_bucket i q kept b' (S cnt)
        | _, _ => outer_map_bucket i q (kept ++ [m]) b' (if x then S cnt else cnt)
        end
  end.
Inductive swept := SDone (b : list row) (m : hashmap) (cnt : nat) | SLimit (b : list row) | SFull (b : list row) (m : hashmap) (rest : list row) (cnt : nat).
Fixpoint outer_map_rows (key : row -> list Z) (m : hashmap) (is b : list row) (cnt : nat) : swept :=
  match is with
  | [] => SDone b m cnt
  | i :: q =>
      match outer_map_bucket i (m (key i)) [] b cnt with
      | (Used b' cnt' _, kept) => outer_map_rows key (update_map m (key i) kept) q b' cnt'
      | (Limit b', _) => SLimit b'
      | (Full b' cnt' _, kept) => SFull b' (update_map m (key i) kept) is cnt'
      end
  end.
(* [cur]: what remains of _inner_row_batch; [bs]: the batches the inner node has still to give *)
Fixpoint outer_map_loop (key : row -> list Z) (m : hashmap) (cur : list row) (bs : list (list row)) (b : list row) (cnt : nat)
  : answer (hashmap * list row * list (list row) * nat) :=
  match outer_map_rows key m cur b cnt with
  | SDone b' m' cnt' =>
      match bs with
      | [] => Batch b' true (m', [], [], cnt')
      | x :: q => outer_map_loop key m' x q b' cnt'
      end
  | SLimit b' => Batch b' true (m, cur, bs, cnt)
  | SFull b' m' rest cnt' => Batch b' false (m', rest, bs, cnt')
  end.

(* apply_node.h get_loop_num: the limit of the parent, doubled in every loop *)
Definition loop_num (k loops : nat) : nat := k * 2 ^ loops.
(* 629-694 get_next_via_loop_outer_hash_map: the rest of the outer rows, the map, the rest of the
   inner rows, _loops, _num_rows_returned.  [build]: construct_hash_map; [fetch]: the rows the
   inner node gives for some outer rows (joiner.cpp:417-446) *)
Definition outer_loop (key : row -> list Z) (build : list row -> hashmap) (fetch : list row -> list row) (k : nat)
    (os : list row) (m : hashmap) (is : list row) (loops cnt : nat) : answer (list row * hashmap * list row * nat * nat) :=
  let run os m is loops :=
    match outer_map_rows key m is [] cnt with
    | SDone b' m' cnt' => Batch b' false (os, m', [], loops, cnt')
    | SLimit b' => Batch b' true (os, m, is, loops, cnt)
    | SFull b' m' rest cnt' => Batch b' false (os, m', rest, loops, cnt')
    end in
  match is with
  | [] =>
      match os with
      | [] => Batch [] true ([], m, [], loops, cnt)
      | _ => let chunk := firstn (loop_num k loops) os in
             run (skipn (loop_num k loops) os) (build chunk) (fetch chunk) (S loops)
      end
  | _ => run os m is loops
  end.
End Exec.
Arguments Batch {A}. Arguments Fail {A}.

(* ---- the node ---- *)

Definition apairs (A : apply) : list (slot * slot) := key_pairs (ap_outer A) (ap_inner A) (ap_conds A).
Definition arest (A : apply) : list jcond := rest_conds (ap_outer A) (ap_inner A) (ap_conds A).
(* joiner.cpp:624-631 construct_hash_map *)
Definition build_map (key : row -> list Z) (rows : list row) : hashmap := bucket key rows.

(* What the inner node gives: for an outer row put in, in batches, and for a part of the outer rows *)
Record source := Source { src_row : row -> list row; src_batches : list (list row); src_rows : list row -> list row }.

Inductive astate :=
| TNested (os is : list row) (cnt : nat)
| TInner (inner os : list row) (idx cnt : nat)
| TOuter (m : hashmap) (cur : list row) (bs : list (list row)) (cnt : nat)
| TLoop (k : nat) (os : list row) (m : hashmap) (is : list row) (loops cnt : nat)
| TEnd.

(* apply_node.cpp:218-250 open: 240 _use_hash_map && !_max_one_row && !_conditions_has_agg *)
Definition hashes (A : apply) : bool := match apairs A with [] => false | _ => negb (ap_one_row A) && negb (ap_has_agg A) end.
(* 264-376 nested_loop_apply, hash_apply, loop_hash_apply.  None: the statement fails *)
Definition aopen (A : apply) (src : source) (outer : list row) : option astate :=
  match outer with
  | [] => Some TEnd
  | o :: _ =>
      if hashes A then
        match ap_type A, ap_parent A with
        | ASemi, Some k =>
            let chunk := firstn (loop_num k 0) outer in
            Some (TLoop k (skipn (loop_num k 0) outer) (build_map (outer_key (apairs A)) chunk) (src_rows src chunk) 1 0)
        | ASemi, None => Some (TOuter (build_map (outer_key (apairs A)) outer) [] (src_batches src) 0)
        | _, _ => Some (TInner (concat (src_batches src)) outer 0 0)
        end
      else match fetch_checked (ap_one_row A) (src_row src) o with
           | None => None
           | Some rows => Some (TNested outer rows 0)
           end
  end.
(* 378-390 get_next *)
Definition aget_next (A : apply) (src : source) (cap : nat) (s : astate) : answer astate :=
  let ps := apairs A in
  match s with
  | TEnd => Batch [] true TEnd
  | TNested os is cnt =>
      match nested_loop (ap_size A) (ap_outer A) (ap_inner A) (ap_type A) (arest A) (ap_limit A) (ap_one_row A) cap (src_row src) os is [] cnt with
      | Batch b eos (os', is', cnt') => Batch b eos (TNested os' is' cnt')
      | Fail => Fail
      end
  | TInner inner os idx cnt =>
      match inner_map_loop (ap_size A) (ap_outer A) (ap_inner A) (ap_type A) (arest A) (ap_limit A) cap
              (fun o => bucket (inner_key ps) inner (outer_key ps o)) os idx [] cnt with
      | Batch b eos (os', idx', cnt') => Batch b eos (TInner inner os' idx' cnt')
      | Fail => Fail
      end
  | TOuter m cur bs cnt =>
      match outer_map_loop (ap_size A) (ap_outer A) (ap_inner A) (ap_type A) (arest A) (ap_limit A) cap (inner_key ps) m cur bs [] cnt with
      | Batch b eos (m', cur', bs', cnt') => Batch b eos (TOuter m' cur' bs' cnt')
      | Fail => Fail
      end
  | TLoop k os m is loops cnt =>
      match outer_loop (ap_size A) (ap_outer A) (ap_inner A) (ap_type A) (arest A) (ap_limit A) cap (inner_key ps)
              (build_map (outer_key ps)) (src_rows src) k os m is loops cnt with
      | Batch b eos (os', m', is', loops', cnt') => Batch b eos (TLoop k os' m' is' loops' cnt')
      | Fail => Fail
      end
  end.

(* the parent calls get_next until eos, each time with a batch of some capacity *)
Inductive outcome := Rows (out : list row) | Error | Unfinished.
Fixpoint adrain (A : apply) (src : source) (caps : list nat) (s : astate) (acc : list row) : outcome :=
  match caps with
  | [] => Unfinished
  | c :: q =>
      match aget_next A src c s with
      | Fail => Error
      | Batch b eos s' => if eos then Rows (acc ++ b) else adrain A src q s' (acc ++ b)
      end
  end.
Definition arun (A : apply) (src : source) (outer : list row) (caps : list nat) : outcome :=
  match aopen A src outer with None => Error | Some s => adrain A src caps s [] end.

(* What the inner node gives.  [sub o]: the rows of what remains of the subquery below the apply
   node, with the columns of the outer row [o] put in (apply_node.cpp:286
   replace_slot_ref_to_literal); [inner]: its rows when nothing is put in, as in hash_apply.  The
   IN condition is put on it by runtime_filter (joiner.cpp:293-340). *)
Record supplies (in_eq : coltype -> coltype -> value -> value -> bool) (A : apply) (sub : row -> list row) (inner : list row) (outer : list row) (src : source) : Prop := {
  sup_row : forall o, In o outer -> Permutation (src_row src o) (filter (in_pass in_eq (apairs A) [o]) (sub o));
  sup_batches : Permutation (concat (src_batches src)) (filter (in_pass in_eq (apairs A) outer) inner);
  sup_rows : forall part, incl part outer -> Permutation (src_rows src part) (filter (in_pass in_eq (apairs A) part) inner) }.

(* ---- the conditions of the node ---- *)

(* Predicates with a subquery that refers to the outer query.  [x]: the expression on the left;
   [e]: the only expression in the SELECT list of the subquery. *)
Inductive predicate := PIn | PNotIn | PAny (op : cop) | PAll (op : cop) | PScalar (op : cop) | PExists | PNotExists.
(* logical_planner.cpp:3245-3252 anti_op_map *)
Definition anti_op (op : cop) : cop :=
  match op with OpEq => OpNe | OpNe => OpEq | OpGt => OpLe | OpGe => OpLt | OpLt => OpGe | OpLe => OpGt end.
Definition compare_cond (op : cop) (x e : operand) : jcond :=
  match op with
  | OpEq => CEq x e
  | _ => CFun (fun r => compare_fn (value_compare (op_type x)) op (op_value r x) (op_value r e))
  end.
(* logical_planner.cpp:233-250 (IN), 2651-2660 (comparison), 3235-3283 (ANY, ALL), 3331-3345
   (EXISTS): the join type, the condition construct_apply_node (2518-2600) builds from the
   predicate and the SELECT list, and max_one_row.  The condition of EXISTS is the SELECT list
   itself: [truth] is the value of its first expression as a condition. *)
Definition plan_predicate (p : predicate) (x e : operand) (truth : row -> option bool) : atype * jcond * bool :=
  match p with
  | PIn => (ASemi, compare_cond OpEq x e, false)
  | PNotIn => (AAnti, compare_cond OpEq x e, false)
  | PAny op => (ASemi, compare_cond op x e, false)
  | PAll op => (AAnti, compare_cond (anti_op op) x e, false)
  | PScalar op => (ASemi, compare_cond op x e, true)
  | PExists => (ASemi, CFun truth, false)
  | PNotExists => (AAnti, CFun truth, false)
  end.
(* apply_node.cpp:53-196 decorrelate, for a subquery without aggregation: the conditions with
   columns of the outer query are moved to the node *)
Definition apply_conds (p : predicate) (x e : operand) (truth : row -> option bool) (moved : list jcond) : list jcond :=
  snd (fst (plan_predicate p x e truth)) :: moved.
Definition apply_type (p : predicate) : atype := fst (fst (plan_predicate p (OExpr INT64 (fun _ => None)) (OExpr INT64 (fun _ => None)) (fun _ => None))).
Definition apply_one_row (p : predicate) : bool := snd (plan_predicate p (OExpr INT64 (fun _ => None)) (OExpr INT64 (fun _ => None)) (fun _ => None)).
