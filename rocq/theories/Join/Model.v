(* The row executor of joins: src/exec/joiner.cpp, src/exec/join_node.cpp:920-1326, and the
   limits given to the nodes of a plan (src/physical_plan/limit_calc.cpp).

   Not modelled: vectorized execution (Arrow), the join loop of full exports, SEMI and
   ANTI_SEMI joins (apply nodes), memory accounting, EXPLAIN. *)
From Coq Require Import List ZArith Bool Arith Sorting.Permutation.
From Verif Require Import Common.Bytes Common.KV Key.Model Key.Spec.
From Verif Require Expr.Value.
Import ListNotations.
Local Open Scope Z_scope.

(* ---- rows ---- *)

(* MemRow (include/mem_row/mem_row.h): one tuple per tuple id, absent tuples read as NULL *)
Definition tuple := list (option value).
Definition row := list (option tuple).
Definition get_value (r : row) (t s : nat) : option value :=
  match nth t r None with Some tp => nth s tp None | None => None end.
Definition mem (x : nat) (l : list nat) : bool := existsb (Nat.eqb x) l.
(* MemRowDescriptor::fetch_mem_row: a row of [n] absent tuples; MemRow::copy_from *)
Definition fetch_mem_row (n : nat) : row := repeat None n.
Definition copy_from (ids : list nat) (src dst : row) : row :=
  map (fun i => if mem i ids then nth i src None else nth i dst None) (seq 0 (length dst)).

(* ---- ON conditions ---- *)

Record slot := Slot { s_tuple : nat; s_id : nat; s_type : coltype }.
Definition col (r : row) (s : slot) : option value := get_value r (s_tuple s) (s_id s).
Inductive operand := OSlot (s : slot) | OExpr (t : coltype) (f : row -> option value).
(* a = b, (a1, ...) = (b1, ...), anything else.  [jcond] is an entry of _conditions. *)
Inductive jcond :=
| CEq (a b : operand)
| CRowEq (ps : list (operand * operand))
| CFun (f : row -> option bool).
Definition op_type (o : operand) : coltype := match o with OSlot s => s_type s | OExpr t _ => t end.
Definition op_value (r : row) (o : operand) : option value := match o with OSlot s => col r s | OExpr _ f => f r end.

Definition ctype_dec (a b : coltype) : {a = b} + {a <> b}.
Proof. decide equality. Defined.
Definition ctype_eqb (a b : coltype) : bool := if ctype_dec a b then true else false.
Definition veqb (v w : value) : bool :=
  match v, w with VNum x, VNum y => x =? y | VStr s, VStr u => beqb s u | _, _ => false end.
(* the function "=" (src/expr/operators.cpp), for columns of one type and for integer columns;
   conversions between other types are not modelled *)
Definition eq_fn (ta tb : coltype) (x y : option value) : bool :=
  match x, y with
  | Some v, Some w => if ctype_eqb ta tb then match value_compare ta v w with Eq => true | _ => false end else veqb v w
  | _, _ => false
  end.
Definition eq_ops (r : row) (a b : operand) : bool := eq_fn (op_type a) (op_type b) (op_value r a) (op_value r b).
Definition cond_true (r : row) (c : jcond) : bool :=
  match c with
  | CEq a b => eq_ops r a b
  | CRowEq ps => forallb (fun p => eq_ops r (fst p) (snd p)) ps
  | CFun f => match f r with Some b => b | None => false end
  end.
(* joiner.cpp:598-606 is_satisfy_filter *)
Definition is_satisfy_filter (cs : list jcond) (r : row) : bool := forallb (cond_true r) cs.

(* joiner.cpp:82-103 is_slot_ref_equal_condition: the pair (outer slot, inner slot) *)
Definition slot_pair (oids iids : list nat) (a b : operand) : option (slot * slot) :=
  match a, b with
  | OSlot l, OSlot r =>
      if mem (s_tuple l) oids && mem (s_tuple r) iids then Some (l, r)
      else if mem (s_tuple r) oids && mem (s_tuple l) iids then Some (r, l)
      else None
  | _, _ => None
  end.
(* joiner.cpp:106-125 expr_is_equal_condition_and_build_slot: the pairs added, and the answer;
   the pairs before the first one that does not fit stay *)
Fixpoint row_pairs (oids iids : list nat) (ps : list (operand * operand)) : list (slot * slot) * bool :=
  match ps with
  | [] => ([], true)
  | (a, b) :: q =>
      match slot_pair oids iids a b with
      | Some p => let (l, ok) := row_pairs oids iids q in (p :: l, ok)
      | None => ([], false)
      end
  end.
Definition equal_condition (oids iids : list nat) (c : jcond) : list (slot * slot) * bool :=
  match c with
  | CEq a b => match slot_pair oids iids a b with Some p => ([p], true) | None => ([], false) end
  | CRowEq ps => row_pairs oids iids ps
  | CFun _ => ([], false)
  end.
(* joiner.cpp:166-219 strip_out_equal_slots: the key columns and the conditions that are left *)
Definition key_pairs (oids iids : list nat) (cs : list jcond) : list (slot * slot) :=
  flat_map (fun c => fst (equal_condition oids iids c)) cs.
Definition rest_conds (oids iids : list nat) (cs : list jcond) : list jcond :=
  filter (fun c => negb (snd (equal_condition oids iids c))) cs.

Definition is_signed (t : coltype) : bool := match t with INT8 | INT16 | INT32 | INT64 => true | _ => false end.
Definition is_uint (t : coltype) : bool := match t with UINT8 | UINT16 | UINT32 | UINT64 => true | _ => false end.
(* _equal_slot_cast_types, with the flag join_key_cast_like_mysql at its default *)
Definition cast_type (o i : coltype) : coltype :=
  if ctype_eqb o i then o
  else if is_signed o && is_signed i then INT64
  else if is_uint o && is_uint i then UINT64
  else STRING.
(* ExprValue::cast_to (include/common/expr_value.h) between integers and from integers to text;
   other conversions are not modelled (the value is left as it is) *)
Definition cast_to (from to : coltype) (v : value) : value :=
  match to, v with
  | STRING, VNum z => VStr (Expr.Value.to_string z)
  | _, _ => v
  end.
(* joiner.cpp:608-622 encode_hash_key; MutTableKey::append_value
   (include/common/mut_table_key.h:167-200) appends nothing for NULL *)
Fixpoint encode_hash_key (r : row) (ss : list slot) (ts : list coltype) : list Z :=
  match ss, ts with
  | s :: ss', t :: ts' =>
      match col r s with
      | Some v => match encode_field false t (cast_to (s_type s) t v) false with Some b => b | None => [] end
      | None => []
      end ++ encode_hash_key r ss' ts'
  | _, _ => []
  end.

Definition cast_types (ps : list (slot * slot)) : list coltype := map (fun p => cast_type (s_type (fst p)) (s_type (snd p))) ps.
Definition outer_key (ps : list (slot * slot)) (r : row) : list Z := encode_hash_key r (map fst ps) (cast_types ps).
Definition inner_key (ps : list (slot * slot)) (r : row) : list Z := encode_hash_key r (map snd ps) (cast_types ps).

(* joiner.cpp:561-573 construct_equal_values and 448-559 construct_in_condition: the condition
   (inner columns) IN (values of the outer rows) put on the inner side by runtime_filter
   (293-387).  InPredicate (src/expr/predicate.cpp:44-190) is never TRUE on a NULL and looks the
   values up after a conversion: [in_eq t v w] says that they are then the same.  Taken as
   given: the set of outer values loses none of them. *)
Definition in_pass (in_eq : coltype -> coltype -> value -> value -> bool) (ps : list (slot * slot)) (outer : list row) (i : row) : bool :=
  match ps with
  | [] => true
  | _ =>
      existsb (fun o => forallb (fun p => match col o (fst p), col i (snd p) with
                                          | Some v, Some w => in_eq (s_type (fst p)) (s_type (snd p)) v w
                                          | _, _ => false
                                          end) ps) outer
  end.

(* ---- the iterators ---- *)

Inductive jtype := JInner | JLeft | JRight | JFull.

Section Exec.
Variables (n : nat) (oids iids : list nat) (jt : jtype) (cs : list jcond) (limit : option nat) (cap : nat).

(* ExecNode::reached_limit; RowBatch::is_full *)
Definition reached_limit (cnt : nat) : bool := match limit with Some l => (l <=? cnt)%nat | None => false end.
Definition is_full (b : list row) : bool := (cap <=? length b)%nat.

(* joiner.cpp:633-685 construct_result_batch, 687-699 construct_null_result_batch *)
Definition result_row (o i : row) : row := copy_from iids i (copy_from oids o (fetch_mem_row n)).
Definition null_row (o : row) : row := copy_from oids o (fetch_mem_row n).
Definition construct_result_batch (use_hash : bool) (b : list row) (o i : row) (matched : bool) : list row * bool :=
  if is_satisfy_filter cs (result_row o i) then (b ++ [result_row o i], true)
  else match jt with
       | JLeft | JRight => if use_hash then (b ++ [null_row o], matched) else (b, matched)
       | _ => (b, matched)
       end.

(* What a call of get_next did: all of the list was used, the limit was reached, the batch
   is full and [rest] is left *)
Inductive progress (A : Type) := Used (b : list row) (cnt : nat) (matched : bool) | Limit (b : list row) | Full (b : list row) (cnt : nat) (rest : A).
Arguments Used {A}. Arguments Limit {A}. Arguments Full {A}.

(* join_node.cpp:1164-1218 get_next_for_nested_loop_join: the loop over the inner rows.
   [matched] is not cleared between them. *)
Fixpoint nested_inner (o : row) (is : list row) (b : list row) (cnt : nat) (matched : bool) : progress (list row) :=
  match is with
  | [] => Used b cnt matched
  | i :: q =>
      if reached_limit cnt then Limit b
      else if is_full b then Full b cnt is
      else let (b', m) := construct_result_batch false b o i matched in
           nested_inner o q b' (if m then S cnt else cnt) m
  end.
(* answers: the batch, eos, _outer_iter, _inner_iter, _num_rows_returned *)
Fixpoint nested_loop (inner : list row) (os is : list row) (b : list row) (cnt : nat) : list row * bool * (list row * list row * nat) :=
  match os with
  | [] => (b, true, ([], [], cnt))
  | o :: q =>
      match nested_inner o is b cnt false with
      | Used b' cnt' m =>
          if m then nested_loop inner q inner b' cnt'
          else match jt with
               | JLeft | JRight => nested_loop inner q inner (b' ++ [null_row o]) (S cnt')
               | _ => nested_loop inner q inner b' cnt'
               end
      | Limit b' => (b', true, (os, is, cnt))
      | Full b' cnt' is' => (b', false, (os, is', cnt'))
      end
  end.

(* join_node.cpp:1220-1275 get_next_for_hash_outer_join: the rows of a bucket from
   _result_row_index on *)
Fixpoint outer_bucket (o : row) (ms : list row) (idx : nat) (b : list row) (cnt : nat) : progress nat :=
  match ms with
  | [] => Used b cnt true
  | m :: q =>
      if reached_limit cnt then Limit b
      else if is_full b then Full b cnt idx
      else outer_bucket o q (S idx) (fst (construct_result_batch true b o m false)) (S cnt)
  end.
(* [seek]: the bucket of the hash map for the key of the outer row *)
Fixpoint hash_outer (seek : row -> list row) (os : list row) (idx : nat) (b : list row) (cnt : nat) : list row * bool * (list row * nat * nat) :=
  match os with
  | [] => (b, true, ([], O, cnt))
  | o :: q =>
      match seek o with
      | [] =>
          if reached_limit cnt then (b, true, (os, idx, cnt))
          else if is_full b then (b, false, (os, idx, cnt))
          else hash_outer seek q 0 (b ++ [null_row o]) (S cnt)
      | bucket =>
          match outer_bucket o (skipn idx bucket) idx b cnt with
          | Used b' cnt' _ => hash_outer seek q 0 b' cnt'
          | Limit b' => (b', true, (os, idx, cnt))
          | Full b' cnt' idx' => (b', false, (os, idx', cnt'))
          end
      end
  end.

(* join_node.cpp:1277-1326 get_next_for_hash_inner_join: the hash map holds the outer rows, the
   inner rows come in batches *)
Fixpoint inner_bucket (i : row) (ms : list row) (idx : nat) (b : list row) (cnt : nat) : progress nat :=
  match ms with
  | [] => Used b cnt true
  | m :: q =>
      if reached_limit cnt then Limit b
      else if is_full b then Full b cnt idx
      else let (b', matched) := construct_result_batch true b m i false in
           inner_bucket i q (S idx) b' (if matched then S cnt else cnt)
  end.
Fixpoint inner_rows (seek : row -> list row) (is : list row) (idx : nat) (b : list row) (cnt : nat) : progress (list row * nat) :=
  match is with
  | [] => Used b cnt true
  | i :: q =>
      match inner_bucket i (skipn idx (seek i)) idx b cnt with
      | Used b' cnt' _ => inner_rows seek q 0 b' cnt'
      | Limit b' => Limit b'
      | Full b' cnt' idx' => Full b' cnt' (is, idx')
      end
  end.
(* [cur]: what is left of _inner_row_batch; [bs]: the batches the inner node has still to give *)
Fixpoint hash_inner (seek : row -> list row) (cur : list row) (idx : nat) (bs : list (list row)) (b : list row) (cnt : nat)
  : list row * bool * (list row * nat * list (list row) * nat) :=
  match inner_rows seek cur idx b cnt with
  | Used b' cnt' _ =>
      match bs with
      | [] => (b', true, ([], O, [], cnt'))
      | x :: q => hash_inner seek x 0 q b' cnt'
      end
  | Limit b' => (b', true, (cur, idx, bs, cnt))
  | Full b' cnt' (cur', idx') => (b', false, (cur', idx', bs, cnt'))
  end.
End Exec.
Arguments Used {A}. Arguments Limit {A}. Arguments Full {A}.

(* ---- the node ---- *)

(* joiner.cpp:624-631 construct_hash_map; FlatMap::seek *)
Definition bucket (key : row -> list Z) (rows : list row) (k : list Z) : list row := filter (fun r => beqb (key r) k) rows.

(* the three iterators; [inner] are the rows of the inner node *)
Inductive jstate :=
| SNested (inner os is : list row) (cnt : nat)
| SOuter (inner : list row) (os : list row) (idx cnt : nat)
| SInner (outer : list row) (cur : list row) (idx : nat) (bs : list (list row)) (cnt : nat)
| SEnd.

Record join := Join { j_size : nat; j_type : jtype; j_outer : list nat; j_inner : list nat; j_conds : list jcond; j_limit : option nat }.
Definition pairs_of (J : join) : list (slot * slot) := key_pairs (j_outer J) (j_inner J) (j_conds J).
Definition rest_of (J : join) : list jcond := rest_conds (j_outer J) (j_inner J) (j_conds J).

(* join_node.cpp:1114-1142 open, 920-1022 hash_join, 1035-1112 nested_loop_join.  [outer]: the
   rows of the outer node; [bs]: the batches the inner node gives under the IN condition. *)
Definition open (J : join) (outer : list row) (bs : list (list row)) : jstate :=
  match outer with
  | [] => SEnd
  | _ =>
      match pairs_of J with
      | [] => SNested (concat bs) outer (concat bs) 0
      | _ => match j_type J with
             | JLeft | JRight => SOuter (concat bs) outer 0 0
             | _ => SInner outer [] 0 bs 0
             end
      end
  end.
(* join_node.cpp:1144-1162 get_next, with a batch of [cap] rows *)
Definition get_next (J : join) (cap : nat) (s : jstate) : list row * bool * jstate :=
  let ps := pairs_of J in
  match s with
  | SEnd => ([], true, SEnd)
  | SNested inner os is cnt =>
      let '(b, eos, (os', is', cnt')) := nested_loop (j_size J) (j_outer J) (j_inner J) (j_type J) (rest_of J) (j_limit J) cap inner os is [] cnt in
      (b, eos, SNested inner os' is' cnt')
  | SOuter inner os idx cnt =>
      let '(b, eos, (os', idx', cnt')) := hash_outer (j_size J) (j_outer J) (j_inner J) (j_type J) (rest_of J) (j_limit J) cap
                                            (fun o => bucket (inner_key ps) inner (outer_key ps o)) os idx [] cnt in
      (b, eos, SOuter inner os' idx' cnt')
  | SInner outer cur idx bs cnt =>
      let '(b, eos, (cur', idx', bs', cnt')) := hash_inner (j_size J) (j_outer J) (j_inner J) (j_type J) (rest_of J) (j_limit J) cap
                                            (fun i => bucket (outer_key ps) outer (inner_key ps i)) cur idx bs [] cnt in
      (b, eos, SInner outer cur' idx' bs' cnt')
  end.
(* the parent calls get_next until eos, each time with a batch of some capacity *)
Fixpoint drain (J : join) (caps : list nat) (s : jstate) (acc : list row) : option (list row) :=
  match caps with
  | [] => None
  | c :: q => let '(b, eos, s') := get_next J c s in if eos then Some (acc ++ b) else drain J q s' (acc ++ b)
  end.

(* What open() (join_node.cpp:920-1112) gets from the inner node: the rows that pass the IN
   condition, in some order and some batches.  An IN condition that is pushed to an index scan
   or not pushed at all (as in nested loops, with no key columns) gives the same rows. *)
Definition inner_gives (in_eq : coltype -> coltype -> value -> value -> bool) (J : join) (outer inner : list row) (bs : list (list row)) : Prop :=
  Permutation (concat bs) (filter (in_pass in_eq (pairs_of J) outer) inner).

(* limit_calc.cpp:33-104 _analyze_limit at a join: the limits of the left and the right child *)
Definition child_limits (jt : jtype) (k : nat) : option nat * option nat :=
  match jt with
  | JInner => (None, None)
  | JLeft => (Some k, None)
  | JRight => (None, Some k)
  | JFull => (Some k, Some k)
  end.
(* join_node.cpp:1120-1129: RIGHT JOIN takes the right child as the outer node *)
Definition outer_limit (jt : jtype) (k : nat) : option nat :=
  match jt with JRight => snd (child_limits jt k) | _ => fst (child_limits jt k) end.
Definition inner_limit (jt : jtype) (k : nat) : option nat :=
  match jt with JRight => fst (child_limits jt k) | _ => snd (child_limits jt k) end.
