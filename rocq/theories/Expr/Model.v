(* Expression evaluation: logical connectives, IS NULL / IS TRUE, comparisons, IN,
   integer operators and the WHERE filter
   (include/expr/predicate.h, src/expr/predicate.cpp, src/expr/scalar_fn_call.cpp,
   src/expr/operators.cpp, src/expr/fn_manager.cpp, src/exec/filter_node.cpp).
   Expressions are the row-at-a-time ones; the Arrow (vectorised) evaluation and
   row expressions are not modelled here. *)
From Verif Require Import Common.Bytes Expr.Value.
Local Open Scope Z_scope.

(* parser::FT_EQ .. FT_LT *)
Inductive cmpop := CEq | CNe | CGt | CGe | CLt | CLe.

(* expression nodes (src/expr/expr_node.cpp:546-627); a slot carries its column type *)
Inductive expr :=
| ESlot (i : nat) (t : ptype)
| ELit (v : value)
| EAnd (l : list expr)
| EOr (l : list expr)
| EXor (a b : expr)
| ENot (a : expr)
| EIsNull (a : expr)
| EIsTrue (a : expr)
| ECmp (o : cmpop) (a b : expr)
| EIn (x : expr) (l : list expr).

Definition row := nat -> value.

(* column type of a node: slots and literals carry it, predicates are BOOL
   (src/expr/fn_manager.cpp:316-409, include/expr/literal.h:297-298) *)
Definition ty (e : expr) : ptype :=
  match e with ESlot _ t => t | ELit v => vt v | _ => PBool end.

(* argument type of a comparison.  complete_fn (src/expr/fn_manager.cpp:319-346) picks
   it from both operand types, as compare_diff_type does; but type_inferer
   (src/expr/scalar_fn_call.cpp:57-80) first gives a constant right operand of a
   column the type of the column *)
Definition cmp_arg_type (a b : expr) : ptype :=
  match a, b with
  | ESlot _ t, ELit _ => diff_type t t
  | _, _ => diff_type (ty a) (ty b)
  end.

(* the operator functions on two arguments of one type
   (src/expr/operators.cpp:78-103): native comparison of the union or the string *)
Definition native (x y : value) : comparison :=
  match vt x with
  | PString => bcompare (vs x) (vs y)
  | PDouble => dbl_compare x y
  | _ => vz x ?= vz y
  end.
Definition cmp_holds (o : cmpop) (c : comparison) : bool :=
  match o, c with
  | CEq, Eq | CNe, Lt | CNe, Gt | CGt, Gt | CGe, Gt | CGe, Eq | CLt, Lt | CLe, Lt | CLe, Eq => true
  | _, _ => false
  end.
Definition predicate_fn (o : cmpop) (x y : value) : value :=
  if is_null x || is_null y then vnull
  else vbool (cmp_holds o (native x y)).

(* ScalarFnCall::get_value for a comparison (src/expr/scalar_fn_call.cpp:216-224):
   arguments are cast to the argument type, then the operator is applied *)
Definition cmp_value (t : ptype) (o : cmpop) (x y : value) : option value :=
  match cast_to t x, cast_to t y with
  | Some x', Some y' => Some (predicate_fn o x' y')
  | _, _ => None
  end.

(* _has_null as const_pre_calc computes it (src/expr/expr_node.cpp:33-47): a NULL
   literal anywhere below, except under IS NULL *)
Fixpoint has_null (e : expr) : bool :=
  match e with
  | ESlot _ _ => false
  | ELit v => is_null v
  | EAnd l | EOr l => existsb has_null l
  | EXor a b | ECmp _ a b => has_null a || has_null b
  | ENot a | EIsTrue a => has_null a
  | EIsNull _ => false
  | EIn x l => has_null x || existsb has_null l
  end.

(* InPredicate::singel_open (src/expr/predicate.cpp:102-120): the comparison type
   comes from the tested operand and the first list element; all integer pairs use
   INT64 *)
Definition in_map_type (a b : ptype) : ptype :=
  if is_int a && is_int b then PI64 else diff_type a b.

(* type_inferer on IN (src/expr/scalar_fn_call.cpp:57-68): the constants of a list
   tested against a column take the type of the column, and a literal's value is cast
   to it when read (include/expr/literal.h:212-214) *)
Definition in_elem (x : expr) (v : value) : option value :=
  match x with ESlot _ t => cast_to t v | _ => Some v end.
Definition in_type (x : expr) (first : value) : ptype :=
  match x with ESlot _ t => in_map_type t t | _ => in_map_type (ty x) (vt first) end.

(* membership key of a value cast to the map type (src/expr/predicate.cpp:127-146,
   165-187): int64, double or string *)
Definition same_key (x y : value) : option bool :=
  match vt x with
  | PDouble => Some (match dbl_compare x y with Eq => true | _ => false end)
  | PString => Some (match bcompare (vs x) (vs y) with Eq => true | _ => false end)
  | _ => match get_int PI64 x, get_int PI64 y with
         | Some a, Some b => Some (a =? b)
         | _, _ => None
         end
  end.

(* the set built by singel_open from the non-NULL list elements
   (src/expr/predicate.cpp:121-146), then the lookup (150-188) *)
Fixpoint in_set (x : expr) (t : ptype) (l : list value) : option (list value) :=
  match l with
  | [] => Some []
  | v :: r =>
      match in_elem x v, in_set x t r with
      | Some v', Some s =>
          if is_null v' then Some s else option_map (fun w => w :: s) (cast_to t v')
      | _, _ => None
      end
  end.
Fixpoint in_lookup (x : value) (s : list value) : option bool :=
  match s with
  | [] => Some false
  | y :: r =>
      match same_key x y, in_lookup x r with
      | Some a, Some b => Some (a || b)
      | _, _ => None
      end
  end.

(* InPredicate::get_value (src/expr/predicate.cpp:161-188) *)
Definition in_value (t : ptype) (s : list value) (hn : bool) (xv : value) : option value :=
  if is_null xv then Some vnull else
  match cast_to t xv with
  | None => None
  | Some x' =>
      match in_lookup x' s with
      | None => None
      | Some true => Some (vbool true)
      | Some false => Some (if hn then vnull else vbool false)
      end
  end.

(* the values of constant list elements (literals; other constants are folded to
   literals by const_pre_calc, src/expr/expr_node.cpp:57-86) *)
Fixpoint lits (l : list expr) : option (list value) :=
  match l with
  | [] => Some []
  | ELit v :: r => option_map (cons v) (lits r)
  | _ => None
  end.

(* get_value of the nodes: AndPredicate include/expr/predicate.h:25-42, OrPredicate
   81-99, XorPredicate 138-150, IsNullPredicate 189-197, IsTruePredicate 235-243,
   NotPredicate 454-463, Literal include/expr/literal.h:212-214, SlotRef
   include/expr/slot_ref.h:31-40.  [None]: undefined behaviour or a conversion that is
   not modelled. *)
Fixpoint eval (r : row) (e : expr) : option value :=
  match e with
  | ESlot i t => cast_to t (r i)
  | ELit v => Some v
  | EAnd l =>
      (fix go (l : list expr) (has_null_val : bool) : option value :=
         match l with
         | [] => Some (if has_null_val then vnull else vbool true)
         | c :: l' =>
             match eval r c with
             | None => None
             | Some v =>
                 if negb (is_null v) && negb (get_bool v) then Some (vbool false)
                 else go l' (has_null_val || is_null v)
             end
         end) l false
  | EOr l =>
      (fix go (l : list expr) (has_null_val : bool) : option value :=
         match l with
         | [] => Some (if has_null_val then vnull else vbool false)
         | c :: l' =>
             match eval r c with
             | None => None
             | Some v =>
                 if negb (is_null v) && get_bool v then Some (vbool true)
                 else go l' (has_null_val || is_null v)
             end
         end) l false
  | EXor a b =>
      match eval r a, eval r b with
      | Some x, Some y =>
          Some (if is_null x || is_null y then vnull
                else vbool (negb (Bool.eqb (get_bool x) (get_bool y))))
      | _, _ => None
      end
  | ENot a =>
      match eval r a with
      | Some x => Some (if is_null x then x else vbool (negb (get_bool x)))
      | None => None
      end
  | EIsNull a =>
      match eval r a with Some x => Some (vbool (is_null x)) | None => None end
  | EIsTrue a =>
      match eval r a with Some x => Some (vbool (get_bool x)) | None => None end
  | ECmp o a b =>
      match eval r a, eval r b with
      | Some x, Some y => cmp_value (cmp_arg_type a b) o x y
      | _, _ => None
      end
  | EIn x l =>
      match lits l, eval r x with
      | Some (v :: vs), Some xv =>
          let t := in_type x v in
          match in_set x t (v :: vs) with
          | Some s => in_value t s (has_null x || existsb has_null l) xv
          | None => None
          end
      | _, _ => None
      end
  end.

(* FilterNode::need_copy (src/exec/filter_node.cpp:726-734) *)
Fixpoint need_copy (conjuncts : list expr) (r : row) : option bool :=
  match conjuncts with
  | [] => Some true
  | c :: cs =>
      match eval r c with
      | None => None
      | Some v => if is_null v || negb (get_bool v) then Some false else need_copy cs r
      end
  end.

(* ---- integer operators ---- *)

Inductive binop := BAdd | BSub | BMul | BMod | BShl | BShr | BAnd | BOr | BXor.

(* complete_fn (src/expr/fn_manager.cpp:348-376): argument and result type *)
Definition arith_type (o : binop) (a b : ptype) : ptype :=
  match o with
  | BAdd | BSub | BMul =>
      if is_double a || is_double b then PDouble
      else if is_uint a || is_uint b then PU64 else PI64
  | BMod => if is_uint a || is_uint b then PU64 else PI64
  | _ => PU64
  end.

Definition in_range (t : ptype) (z : Z) : bool :=
  match range_of t with Some (lo, hi) => (lo <=? z) && (z <? hi) | None => false end.

(* signed overflow is undefined behaviour in C++, unsigned wraps *)
Definition int_result (t : ptype) (z : Z) : option value :=
  match t with
  | PI64 => if in_range PI64 z then Some (vnum PI64 z) else None
  | _ => Some (vnum t (wrap t z))
  end.

(* BINARY_OP_FN / BINARY_OP_ZERO_FN (src/expr/operators.cpp:35-76) on arguments of type
   [t].  Shifting by 64 or more is undefined; so is INT64_MIN % -1.  Doubles are not
   modelled. *)
Definition op_fn (o : binop) (t : ptype) (x y : value) : option value :=
  if is_null x || is_null y then Some vnull else
  let a := vz x in let b := vz y in
  match t with
  | PI64 | PU64 =>
      match o with
      | BAdd => int_result t (a + b)
      | BSub => int_result t (a - b)
      | BMul => int_result t (a * b)
      | BMod =>
          if b =? 0 then Some vnull
          else if in_range t (Z.quot a b) then Some (vnum t (Z.rem a b)) else None
      | BShl => if b <? 64 then int_result t (Z.shiftl a b) else None
      | BShr => if b <? 64 then int_result t (Z.shiftr a b) else None
      | BAnd => int_result t (Z.land a b)
      | BOr => int_result t (Z.lor a b)
      | BXor => int_result t (Z.lxor a b)
      end
  | _ => None
  end.

(* ScalarFnCall::get_value for a binary operator (src/expr/scalar_fn_call.cpp:216-224) *)
Definition arith_value (o : binop) (ta tb : ptype) (x y : value) : option value :=
  let t := arith_type o ta tb in
  match cast_to t x, cast_to t y with
  | Some x', Some y' => op_fn o t x' y'
  | _, _ => None
  end.

(* unary minus: complete_fn 381-389, minus_int / minus_uint
   (src/expr/operators.cpp:31-32) both negate the union as int64 and return INT64, and
   the result is cast to the declared type, UINT64 for an unsigned operand *)
Definition neg_value (ta : ptype) (x : value) : option value :=
  if is_double ta then None else
  let t := if is_uint ta then PU64 else PI64 in
  match cast_to t x with
  | None => None
  | Some x' =>
      if is_null x' then Some vnull else
      match int_result PI64 (- wrap PI64 (vz x')) with
      | Some v => cast_to t v
      | None => None
      end
  end.
