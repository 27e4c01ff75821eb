(* x op (SELECT f(e) FROM sub WHERE moved), the subquery referring to the outer query:
   ApplyNode::decorrelate (src/exec/apply_node.cpp:53-185) with an aggregation below.  The
   aggregation itself (AggNode) is that of the area Agg; here it is a function of the rows. *)
From Coq Require Import List ZArith Bool Arith Sorting.Permutation.
From Verif Require Import Common.Bytes Common.KV Key.Model Key.Spec Join.Model Subquery.Spec Subquery.Model Subquery.ApplyModel.
Import ListNotations.

(* apply_node.cpp:57-66 extract_eq_inner_slots, 87-102 is_correlate_expr: the columns of the
   subquery in the equalities moved out of it *)
Definition inner_slot (iids : list nat) (o : operand) : list slot :=
  match o with OSlot s => if mem (s_tuple s) iids then [s] else [] | OExpr _ _ => [] end.
Definition eq_inner_slots (iids : list nat) (c : jcond) : list slot :=
  match c with
  | CEq a b => inner_slot iids a ++ inner_slot iids b
  | CRowEq ps => flat_map (fun p => inner_slot iids (fst p) ++ inner_slot iids (snd p)) ps
  | CFun _ => []
  end.
(* 128-137 add_group_expr.  A column given twice is added once (agg_node.h:65-77): the groups are
   the same *)
Definition group_slots (iids : list nat) (moved : list jcond) : list slot := flat_map (eq_inner_slots iids) moved.
Definition key_values (ks : list slot) (r : row) : list (option value) := map (col r) ks.

Definition ovalue_eqb (v w : option value) : bool :=
  match v, w with Some a, Some b => veqb a b | None, None => true | _, _ => false end.
Fixpoint keys_eqb (a b : list (option value)) : bool :=
  match a, b with
  | [], [] => true
  | v :: p, w :: q => ovalue_eqb v w && keys_eqb p q
  | _, _ => false
  end.
(* the row of a group: its first row, with the value of the function in the tuple [a] *)
Definition group_row (n a : nat) (r : row) (v : option value) : row :=
  map (fun t => if Nat.eqb t a then Some [v] else nth t r None) (seq 0 n).
(* AggNode with these group expressions; without any there is always one row *)
Fixpoint firsts (ks : list slot) (seen : list (list (option value))) (rows : list row) : list row :=
  match rows with
  | [] => []
  | r :: q => let k := key_values ks r in
              if existsb (keys_eqb k) seen then firsts ks seen q else r :: firsts ks (k :: seen) q
  end.
Definition aggregated (n a : nat) (f : list (option value) -> option value) (e : row -> option value) (ks : list slot) (rows : list row) : list row :=
  match ks with
  | [] => [group_row n a (hd [] rows) (f (map e rows))]
  | _ => map (fun r => group_row n a r (f (map e (filter (fun i => keys_eqb (key_values ks r) (key_values ks i)) rows)))) (firsts ks [] rows)
  end.
(* the value of the function in a row of the node: AggFnCall::get_value reads the tuple *)
Definition agg_operand (t : coltype) (a : nat) : operand := OExpr t (fun r => get_value r a 0).
(* the conditions of the node and the rows below it.  [split]: not COUNT of all rows (167-171),
   not in the SELECT list (162-165) *)
Definition agg_conds (split : bool) (op : cop) (x : operand) (t : coltype) (a : nat) (moved : list jcond) : list jcond :=
  compare_cond op x (agg_operand t a) :: (if split then moved else []).
Definition agg_rows (split : bool) (n a : nat) (L R : list nat) (f : list (option value) -> option value) (e : row -> option value)
    (moved : list jcond) (rows : list row) (o : row) : list row :=
  if split then aggregated n a f e (group_slots R moved) rows
  else aggregated n a f e [] (filter (fun i => is_satisfy_filter moved (result_row n L R o i)) rows).
