(* Predicate pushdown and the conversion of outer joins: src/exec/join_node.cpp:63-221,
   src/exec/filter_node.cpp:545-563, src/exec/rocksdb_scan_node.cpp:339-351,
   src/exec/exec_node.cpp:103-112, src/expr/expr_node.cpp:136-155,
   include/exec/joiner.h:80-102, include/expr/expr_node.h:268-281.

   Plans of scans, filters and joins.  Not modelled: aggregation, HAVING, UNION and derived
   tables (other overrides of predicate_pushdown), apply nodes. *)
From Coq Require Import List ZArith Bool Arith.
From Verif Require Import Common.Bytes Key.Model Join.Model.
Import ListNotations.

(* ---- expressions ---- *)

(* Expression trees (include/expr/expr_node.h) by what the planner asks of them:
   - EFn: functions and operators that are NULL when an argument is (=, <, +, NOT, BETWEEN, ...)
   - ENull: the ones contains_null_function knows (IS NULL, ifnull, isnull, if, case_when,
     case_expr_when)
   - ETol: others that may be non-NULL on a NULL (IS TRUE, concat_ws)
   - AND, OR (include/expr/predicate.h) *)
Inductive expr :=
| ESlot (t s : nat)
| EConst (v : option value)
| EFn (f : list value -> option value) (args : list expr)
| ENull (f : list (option value) -> option value) (args : list expr)
| ETol (f : list (option value) -> option value) (args : list expr)
| EAnd (a b : expr)
| EOr (a b : expr).

(* expr_node.cpp:136-155 contains_null_function *)
Fixpoint contains_null_function (e : expr) : bool :=
  match e with
  | ESlot _ _ | EConst _ => false
  | ENull _ _ => true
  | EFn _ l | ETol _ l => existsb contains_null_function l
  | EAnd a b | EOr a b => contains_null_function a || contains_null_function b
  end.
(* expr_node.h:268-281 contains_special_operator(OR_PREDICATE) *)
Fixpoint contains_or (e : expr) : bool :=
  match e with
  | ESlot _ _ | EConst _ => false
  | EOr _ _ => true
  | EFn _ l | ENull _ l | ETol _ l => existsb contains_or l
  | EAnd a b => contains_or a || contains_or b
  end.
(* expr_node.cpp get_all_tuple_ids *)
Fixpoint tuple_ids (e : expr) : list nat :=
  match e with
  | ESlot t _ => [t]
  | EConst _ => []
  | EFn _ l | ENull _ l | ETol _ l => flat_map tuple_ids l
  | EAnd a b | EOr a b => tuple_ids a ++ tuple_ids b
  end.
(* joiner.h:91-102 expr_in_tuple_ids *)
Definition contains (ids : list nat) (e : expr) : bool := forallb (fun t => mem t ids) (tuple_ids e).

(* ---- plans ---- *)

(* [Scan t rs]: the rows of the table with tuple id [t] *)
Inductive plan :=
| Scan (t : nat) (rs : list tuple)
| Filter (es : list expr) (c : plan)
| JoinOf (jt : jtype) (on : list expr) (l r : plan).

(* _left_tuple_ids and _right_tuple_ids, which the planner takes from the tables of the sides *)
Fixpoint plan_ids (p : plan) : list nat :=
  match p with Scan t _ => [t] | Filter _ c => plan_ids c | JoinOf _ _ l r => plan_ids l ++ plan_ids r end.

(* join_node.cpp:171-202, the loop of a FULL JOIN: (outer_has_not_null_expr,
   inner_has_not_null_expr).  The outer side is the left one. *)
Fixpoint full_flags (O I : list nat) (es : list expr) (fo fi : bool) : bool * bool :=
  match es with
  | [] => (fo, fi)
  | e :: q =>
      if contains O e && negb (contains_null_function e) then full_flags O I q true fi
      else if contains I e && negb (contains_null_function e) then full_flags O I q fo true
      else if negb (contains O e) && negb (contains I e) && contains (O ++ I) e && negb (contains_null_function e) && negb (contains_or e)
           then (true, true)
      else full_flags O I q fo fi
  end.
(* join_node.cpp:206-220, the loop of a LEFT or RIGHT JOIN: becomes INNER *)
Fixpoint rejects_nulls (O I : list nat) (es : list expr) : bool :=
  match es with
  | [] => false
  | e :: q =>
      if contains O e then rejects_nulls O I q
      else if contains I e && negb (contains_null_function e) then true
      else if contains (O ++ I) e && negb (contains_null_function e) && negb (contains_or e) then true
      else rejects_nulls O I q
  end.
Definition new_type (jt : jtype) (L R : list nat) (es : list expr) : jtype :=
  match jt with
  | JInner => JInner
  | JFull => match full_flags L R es false false with
             | (true, true) => JInner | (true, false) => JLeft | (false, true) => JRight | (false, false) => JFull
             end
  | JLeft => if rejects_nulls L R es then JInner else JLeft
  | JRight => if rejects_nulls R L es then JInner else JRight
  end.

(* join_node.cpp:143-221 convert_to_inner_join: the joins that are children of the join are
   converted with its own conditions too *)
Fixpoint convert_to_inner_join (es : list expr) (p : plan) : plan :=
  match p with
  | JoinOf jt on l r =>
      JoinOf (new_type jt (plan_ids l) (plan_ids r) es) on
             (convert_to_inner_join (es ++ on) l) (convert_to_inner_join (es ++ on) r)
  | _ => p
  end.

(* _outer_node is the right child *)
Definition right_is_outer (before after : jtype) : bool :=
  match before, after with JRight, _ => true | _, JRight => true | _, _ => false end.

(* exec_node.cpp:148-161 add_filter_node; the joins add one if expressions are left *)
Definition with_filter (es : list expr) (p : plan) : plan := match es with [] => p | _ => Filter es p end.

(* join_node.cpp:63-141: where the expressions go.  [O], [I]: tuple ids of the outer and the
   inner node.  Answers the expressions for the outer and the inner node, the new conditions
   and the expressions left to the caller.  Expressions that read other tables (of a query
   around a correlated subquery) are left to the caller by an INNER JOIN. *)
Definition correlated (O I : list nat) (e : expr) : bool :=
  match tuple_ids e with [] => false | _ => negb (contains (O ++ I) e) end.
Definition distribute (jt : jtype) (O I : list nat) (on es : list expr) : list expr * list expr * list expr * list expr :=
  let cor := filter (correlated O I) es in
  let es := filter (fun e => negb (correlated O I e)) es in
  match jt with
  | JInner =>
      (filter (contains O) on ++ filter (contains O) es,
       filter (fun e => negb (contains O e) && contains I e) on ++ filter (fun e => negb (contains O e) && contains I e) es,
       filter (fun e => negb (contains O e) && negb (contains I e)) on ++ filter (fun e => negb (contains O e) && negb (contains I e)) es,
       cor)
  | _ =>
      (filter (contains O) es, filter (contains I) on,
       filter (fun e => negb (contains I e)) on,
       filter (fun e => negb (contains O e)) es)
  end.

(* predicate_pushdown: the new plan and the expressions left in input_exprs.  [fuel]: the
   height of the plan is enough.  [under]: the parent is a filter. *)
Fixpoint predicate_pushdown (fuel : nat) (under : bool) (p : plan) (es : list expr) : plan * list expr :=
  match fuel with
  | O => (p, es)
  | S k =>
      match p with
      | Scan _ _ => if under then (p, es) else (with_filter es p, [])
      | Filter cs c => let (c', rest) := predicate_pushdown k true c (es ++ cs) in (Filter rest c', [])
      | JoinOf jt _ _ _ =>
          match convert_to_inner_join es p with
          | JoinOf JFull on l r => (JoinOf JFull on l r, es)
          | JoinOf jt' on l r =>
              if right_is_outer jt jt'
              then let '(xo, xi, on', rest) := distribute jt' (plan_ids r) (plan_ids l) on es in
                   let (r', ro) := predicate_pushdown k false r xo in
                   let (l', ri) := predicate_pushdown k false l xi in
                   (JoinOf jt' on' (with_filter ri l') (with_filter ro r'), rest)
              else let '(xo, xi, on', rest) := distribute jt' (plan_ids l) (plan_ids r) on es in
                   let (l', ro) := predicate_pushdown k false l xo in
                   let (r', ri) := predicate_pushdown k false r xi in
                   (JoinOf jt' on' (with_filter ro l') (with_filter ri r'), rest)
          | q => (q, es)
          end
      end
  end.
Fixpoint height (p : plan) : nat :=
  match p with Scan _ _ => 1 | Filter _ c => S (height c) | JoinOf _ _ l r => S (Nat.max (height l) (height r)) end.
(* the pass over a query (include/physical_plan/predicate_pushdown.h, exec_node.cpp:103-112) *)
Definition pushdown (p : plan) : plan :=
  let (p', rest) := predicate_pushdown (height p) false p [] in with_filter rest p'.

(* apply_node.cpp, joiner.cpp replace_slot_ref_to_literal: a correlated subquery is run with the
   columns of the surrounding query ([bound] tables) replaced by their values *)
Fixpoint bind (bound : list nat) (env : row) (e : expr) : expr :=
  match e with
  | ESlot t s => if mem t bound then EConst (get_value env t s) else e
  | EConst _ => e
  | EFn f l => EFn f (map (bind bound env) l)
  | ENull f l => ENull f (map (bind bound env) l)
  | ETol f l => ETol f (map (bind bound env) l)
  | EAnd a b => EAnd (bind bound env a) (bind bound env b)
  | EOr a b => EOr (bind bound env a) (bind bound env b)
  end.
Fixpoint bind_plan (bound : list nat) (env : row) (p : plan) : plan :=
  match p with
  | Scan _ _ => p
  | Filter es c => Filter (map (bind bound env) es) (bind_plan bound env c)
  | JoinOf jt on l r => JoinOf jt (map (bind bound env) on) (bind_plan bound env l) (bind_plan bound env r)
  end.
