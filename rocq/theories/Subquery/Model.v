(* Subqueries in expressions that do not refer to the outer query are run while the statement is
   planned, and their rows are put in as literals:
   src/logical_plan/logical_planner.cpp:172-234 (IN), 2610-2653 (comparison), 2839-3016 (run),
   3018-3217 (ANY, ALL), 3285-3336 (EXISTS); src/logical_plan/select_planner.cpp:394-449
   (minmax_remove), 450-555 (subquery_rewrite).

   The values of one column are a type [V] with an order.  Not modelled: conversions between
   column types, rows of several columns, vectorized execution, EXPLAIN. *)
From Coq Require Import List Bool Arith.
From Verif Require Import Subquery.Spec.
Import ListNotations.

Section Model.
Context {V : Type}.
Variable cmp : V -> V -> comparison.
(* the value a NULL has in ExprValue::_u or str_val: zero or the empty string *)
Variable zero : V.

(* comparison functions (src/expr/operators.cpp), ScalarFnCall::get_value: NULL if an operand is *)
Definition compare_fn (op : cop) (x y : option V) : option bool :=
  match x, y with
  | Some a, Some b =>
      Some (match op, cmp a b with
            | OpEq, Eq => true | OpEq, _ => false
            | OpNe, Eq => false | OpNe, _ => true
            | OpGt, Gt => true | OpGt, _ => false
            | OpGe, Lt => false | OpGe, _ => true
            | OpLt, Lt => true | OpLt, _ => false
            | OpLe, Gt => false | OpLe, _ => true
            end)
  | _, _ => None
  end.
(* src/expr/predicate.cpp:102-190 InPredicate over literals; NotPredicate *)
Definition in_predicate (x : option V) (ls : list (option V)) : option bool :=
  match x with
  | None => None
  | Some a =>
      if existsb (fun l => match l with Some b => match cmp a b with Eq => true | _ => false end | None => false end) ls then Some true
      else if existsb (fun l => match l with None => true | Some _ => false end) ls then None
      else Some false
  end.
Definition not_predicate (v : option bool) : option bool := match v with Some b => Some (negb b) | None => None end.

(* ---- MIN and MAX ---- *)

Inductive extreme := EMin | EMax.
(* src/expr/agg_fn_call.cpp:536-555 update *)
Definition agg_update (f : extreme) (acc v : option V) : option V :=
  match v with
  | None => acc
  | Some b =>
      match acc with
      | None => v
      | Some a => match f, cmp a b with EMin, Gt => v | EMax, Lt => v | _, _ => acc end
      end
  end.
Definition agg (f : extreme) (vs : list (option V)) : option V := fold_left (agg_update f) vs None.

(* ORDER BY with is_null_first = is_asc (src/logical_plan/logical_planner.cpp:4071;
   src/runtime/sorter.cpp, src/mem_row/mem_row_compare.cpp): [a] may stand before [b] *)
Definition row_before (asc : bool) (a b : option V) : bool :=
  match a, b with
  | None, _ => asc || match b with None => true | Some _ => false end
  | _, None => negb asc
  | Some x, Some y => match cmp x y with Lt => asc | Eq => true | Gt => negb asc end
  end.
Fixpoint insert (asc : bool) (v : option V) (l : list (option V)) : list (option V) :=
  match l with
  | [] => [v]
  | w :: q => if row_before asc v w then v :: l else w :: insert asc v q
  end.
Definition sort (asc : bool) (l : list (option V)) : list (option V) := fold_right (insert asc) [] l.
(* select_planner.cpp:394-449 minmax_remove: MIN(c) and MAX(c) of a column alone in the SELECT
   list, without GROUP BY and ORDER BY, become ORDER BY c LIMIT 1 over the rows, whatever LIMIT
   was given.  src/exec/select_manager_node.cpp:334-341 (must_have_one) adds a row of NULL if
   there is none. *)
Definition minmax_remove (f : extreme) (vs : list (option V)) : list (option V) :=
  match firstn 1 (sort (match f with EMin => true | EMax => false end) vs) with [] => [None] | r => r end.

(* What the SELECT list of the subquery is: a column; another expression; or there is
   aggregation, GROUP BY, DISTINCT or a window function *)
Inductive shape := ShColumn | ShExpr | ShAgg.
(* [order]: the subquery has an ORDER BY.  Aggregation is done below LIMIT, window functions too. *)
Record subquery := Sub { sq_shape : shape; sq_order : bool; sq_limit : option nat; sq_rows : list (option V) }.
Definition run (s : subquery) : list (option V) := match sq_limit s with Some n => firstn n (sq_rows s) | None => sq_rows s end.

(* select_planner.cpp:450-555 subquery_rewrite with func_type, cmp_type.  The aggregation gives
   one row, a window function one for each row. *)
Definition rewrite_fn (op : cop) (q : quantifier) : option extreme :=
  match op, q with
  | OpGt, QAll | OpGe, QAll => Some EMax
  | OpGt, QAny | OpGe, QAny => Some EMin
  | OpLt, QAll | OpLe, QAll => Some EMin
  | OpLt, QAny | OpLe, QAny => Some EMax
  | OpEq, _ | OpNe, _ => None
  end.
Definition run_rewritten (op : cop) (q : quantifier) (s : subquery) : list (option V) :=
  match rewrite_fn op q with
  | None => run s
  | Some f =>
      match sq_shape s with
      | ShAgg => let rows := map (fun _ => agg f (sq_rows s)) (sq_rows s) in
                 match sq_limit s with Some n => firstn n rows | None => rows end
      | ShExpr => match sq_limit s with Some n => firstn n [agg f (sq_rows s)] | None => [agg f (sq_rows s)] end
      | ShColumn =>
          if sq_order s then match sq_limit s with Some n => firstn n [agg f (sq_rows s)] | None => [agg f (sq_rows s)] end
          else minmax_remove f (sq_rows s)
      end
  end.

(* ---- the predicates: their value where the expression on the left has the value [x] ---- *)

(* logical_planner.cpp:2965-3011 create_common_subquery_expr: no row becomes NULL *)
Definition literals (rows : list (option V)) : list (option V) := match rows with [] => [None] | _ => rows end.
(* logical_planner.cpp:172-234 handle_in_subquery *)
Definition in_subquery (is_not : bool) (s : subquery) (x : option V) : option bool :=
  let v := in_predicate x (literals (run s)) in if is_not then not_predicate v else v.
(* logical_planner.cpp:2610-2653 handle_scalar_subquery; 2923-2928 the check of max_one_row.
   None: the statement fails *)
Definition compare_subquery (op : cop) (s : subquery) (x : option V) : option (option bool) :=
  match run s with
  | [] => Some (compare_fn op x None)
  | [v] => Some (compare_fn op x v)
  | _ => None
  end.
(* logical_planner.cpp:2929-2957: a subquery in the SELECT list *)
Definition select_subquery (s : subquery) : option (option V) :=
  match run s with [] => Some None | [v] => Some v | _ => None end.
(* logical_planner.cpp:3285-3336 handle_exists_subquery *)
Definition exists_subquery (is_not : bool) (s : subquery) : bool :=
  let row_cnt := length (run s) in
  if negb (row_cnt =? 0) && negb is_not then true
  else if (row_cnt =? 0) && is_not then true
  else false.

(* ExprValue::compare (include/common/expr_value.h:892-943): a NULL on the right is read as zero *)
Definition raw_compare (a b : option V) : comparison :=
  match a, b with
  | Some x, Some y => cmp x y
  | Some x, None => cmp x zero
  | None, None => Eq
  | None, Some _ => Lt
  end.
(* logical_planner.cpp:3084-3091, 3136-3143: the values are not all the first one *)
Definition always_false (rows : list (option V)) : bool :=
  match rows with
  | [] => false
  | first :: q => existsb (fun v => match raw_compare first v with Eq => false | _ => true end) q
  end.
(* logical_planner.cpp:3018-3217 handle_compare_subquery.  An expression has one root: of several
   literals after the first operand of a comparison only the first counts. *)
Definition quantified_subquery (op : cop) (q : quantifier) (s : subquery) (x : option V) : option bool :=
  let rows := run_rewritten op q s in
  let empty := match rows with [] => true | _ => false end in
  let one_value := match op, q with OpEq, QAll | OpNe, QAny => true | _, _ => false end in
  let false_cond := one_value && always_false rows in
  match op, q, rows with
  | OpGt, QAll, [None] | OpGe, QAll, [None] => Some true
  | _, _, _ =>
      if negb empty && negb false_cond then
        let ls := if one_value then firstn 1 rows else rows in
        match op with
        | OpEq => in_predicate x ls
        | OpNe => not_predicate (in_predicate x ls)
        | _ => compare_fn op x (hd None ls)
        end
      else match empty, q with true, QAll => Some true | _, _ => Some false end
  end.

(* SELECT MIN(c) or MAX(c) FROM ... WHERE ... LIMIT k, over the values [vs] of the rows *)
Definition select_extreme (f : extreme) (column : bool) (k : option nat) (vs : list (option V)) : list (option V) :=
  if column then minmax_remove f vs
  else match k with Some n => firstn n [agg f vs] | None => [agg f vs] end.
End Model.
Arguments subquery V : clear implicits.
