(* The rewriting of a WHERE condition before it is executed: OR of equalities into IN
   (src/expr/expr_node.cpp:461-472, 648-839) and the merging of several conditions on one
   column (src/exec/filter_node.cpp:71-544), with row conditions (a, b) = (1, 2) and
   (a, b) IN (...) (include/expr/scalar_fn_call.h:61-133, src/expr/predicate.cpp:27-188).

   The conjuncts are taken as type inference leaves them
   (src/expr/scalar_fn_call.cpp:46-113): the constant on the right (a constant on the left
   has been swapped, 115-128) is already converted.  All columns belong to one table, so a
   column is a slot number; placeholders of prepared statements, LIKE (see Like/) and
   conditions on several tables are not modelled.

   [None] is undefined behaviour, an error raised by open(), or a conversion that
   Expr/Value.v does not model. *)
From Verif Require Import Common.Bytes Common.KV Expr.Value Expr.Model.
Local Open Scope Z_scope.

(* the left operand of a condition: a column with its type, or the constant that replaced
   it *)
Inductive leaf := LSlot (i : nat) (t : ptype) | LVal (v : value).
(* a constant of a list: the declared type (_col_type) and the value as get_value reads it
   (include/expr/literal.h:212-214) *)
Definition elem := (ptype * value)%type.

Inductive pred :=
| Cmp (o : cmpop) (a : ptype) (x : leaf) (v : value)       (* x o v, compared as type a *)
| In (x : leaf) (l : list elem) (hn : bool)                (* x IN l; hn is _has_null *)
| RowCmp (o : cmpop) (xs : list leaf) (vs : list value)    (* (xs) o (vs) *)
| RowIn (xs : list leaf) (rows : list (list elem)) (hn : bool)
| Other (e : expr).                                        (* anything else *)

Notation "'let*' p := c 'in' f" := (match c with Some p => f | None => None end)
  (at level 200, p pattern, c at level 100, f at level 200).

(* Literal(ExprValue) takes the type of the value (include/expr/literal.h:26-30, 297-298) *)
Definition leaf_ty (x : leaf) : ptype := match x with LSlot _ t => t | LVal v => vt v end.
(* SlotRef::get_value (include/expr/slot_ref.h:31-40), Literal::get_value *)
Definition leaf_val (r : row) (x : leaf) : option value :=
  match x with LSlot i t => cast_to t (r i) | LVal v => Some v end.
Fixpoint leaf_vals (r : row) (xs : list leaf) : option (list value) :=
  match xs with
  | [] => Some []
  | x :: q => let* v := leaf_val r x in let* vs := leaf_vals r q in Some (v :: vs)
  end.

(* ---- type inference of the conditions on one column ---- *)

(* src/expr/scalar_fn_call.cpp:57-63, 99-110: the constant takes the column's type, then
   the argument type of the operator; a number given for a date column goes through text
   (include/expr/literal.h:204-210), which is not modelled.  The constants of IN only take
   the column's type. *)
Definition is_date (t : ptype) : bool :=
  match t with PTime | PDate | PTimestamp | PDatetime => true | _ => false end.
Definition to_arg (a : ptype) (v : value) : option value :=
  if is_date a && is_numberic (vt v) then None else cast_to a v.
Fixpoint to_elems (t : ptype) (l : list value) : option (list elem) :=
  match l with
  | [] => Some []
  | v :: q => let* w := cast_to t v in let* ws := to_elems t q in Some ((t, w) :: ws)
  end.
Definition infer (e : expr) : option pred :=
  match e with
  | ECmp o (ESlot i t) (ELit v) =>
      let* w := to_arg (diff_type t t) v in Some (Cmp o (diff_type t t) (LSlot i t) w)
  | EIn (ESlot i t) l =>
      let* vs := lits l in let* ws := to_elems t vs in
      Some (In (LSlot i t) ws (existsb is_null vs))
  | _ => Some (Other e)
  end.

(* ---- evaluation ---- *)

(* the six multi_*_value functions (include/expr/scalar_fn_call.h:61-133) on the pairs of
   operands *)
Fixpoint multi (o : cmpop) (l : list (value * value)) : option bool :=
  match l with
  | [] => Some (match o with CEq | CLe | CGe => true | _ => false end)
  | (x, y) :: q =>
      let* c := compare_diff_type x y in
      match o with
      | CEq => if c =? 0 then multi o q else Some false
      | CNe => if c =? 0 then multi o q else Some true
      | CLt | CLe => if c <? 0 then Some true else if 0 <? c then Some false else multi o q
      | CGt | CGe => if c <? 0 then Some false else if 0 <? c then Some true else multi o q
      end
  end.

(* singel_open (src/expr/predicate.cpp:102-146): the set of the non-NULL constants,
   converted to the map type *)
Fixpoint elem_set (m : ptype) (l : list elem) : option (list value) :=
  match l with
  | [] => Some []
  | (_, v) :: q =>
      let* s := elem_set m q in
      if is_null v then Some s else let* w := cast_to m v in Some (w :: s)
  end.

(* get_int_string (include/common/expr_value.h:768-838): decimal text of the integer and
   date types; the text of DOUBLE is not modelled *)
Definition int_text (v : value) : option (list Z) :=
  match vt v with
  | PNull => Some []
  | PString => Some (vs v)
  | PDouble => None
  | _ => Some (to_string (vz v))
  end.
(* make_key (src/expr/predicate.cpp:45-56): Some None is NULL *)
Fixpoint make_key (ts : list ptype) (l : list value) : option (option (list Z)) :=
  match ts, l with
  | t :: ts', v :: l' =>
      if is_null v then Some None else
      let* w := cast_to t v in
      let* s := int_text w in
      let* k := make_key ts' l' in
      Some (match k with Some k' => Some (s ++ 0 :: k') | None => None end)
  | _, _ => Some (Some [])
  end.
Fixpoint key_set (ts : list ptype) (rows : list (list elem)) : option (list (list Z)) :=
  match rows with
  | [] => Some []
  | l :: q =>
      let* k := make_key ts (map snd l) in
      let* s := key_set ts q in
      Some (match k with Some k' => k' :: s | None => s end)
  end.
(* row_expr_open 61-96: the type of a column of the row comes from the left operand and
   the first list row *)
Definition row_types (xs : list leaf) (first : list elem) : list ptype :=
  map (fun p => in_map_type (leaf_ty (fst p)) (fst (snd p))) (combine xs first).

Definition same_len {A B} (a : list A) (b : list B) : bool := Nat.eqb (length a) (length b).

(* ScalarFnCall::get_value (src/expr/scalar_fn_call.cpp:192-225), InPredicate::open and
   get_value (src/expr/predicate.cpp:27-188) *)
Definition peval (r : row) (p : pred) : option value :=
  match p with
  | Cmp o a x v => let* xv := leaf_val r x in cmp_value a o xv v
  | In x l hn =>
      match l with
      | [] => None
      | (t, _) :: _ =>
          let m := in_map_type (leaf_ty x) t in
          let* s := elem_set m l in
          let* xv := leaf_val r x in
          in_value m s hn xv
      end
  | RowCmp o xs vs =>
      if same_len xs vs then
        let* l := leaf_vals r xs in let* b := multi o (combine l vs) in Some (vbool b)
      else None
  | RowIn xs rows hn =>
      match rows with
      | [] => None
      | first :: _ =>
          if forallb (fun l => same_len xs l) rows then
            let ts := row_types xs first in
            let* s := key_set ts rows in
            let* l := leaf_vals r xs in
            let* k := make_key ts l in
            Some (match k with
                  | None => vnull
                  | Some k' => if existsb (beqb k') s then vbool true
                               else if hn then vnull else vbool false
                  end)
          else None
      end
  | Other e => eval r e
  end.

(* FilterNode::need_copy (src/exec/filter_node.cpp:726-734) *)
Fixpoint keeps (cs : list pred) (r : row) : option bool :=
  match cs with
  | [] => Some true
  | p :: q => let* v := peval r p in if is_null v || negb (get_bool v) then Some false else keeps q r
  end.

(* ---- OR of equalities into IN ---- *)

(* a child that is "column = constant" (src/expr/expr_node.cpp:682-686): slot, column type
   and the constant converted to the argument type *)
Definition eq_of (e : expr) : option (nat * ptype * value) :=
  match e with
  | ECmp CEq (ESlot i t) (ELit v) => let* w := to_arg (diff_type t t) v in Some (i, t, w)
  | _ => None
  end.
Fixpoint eqs_of (l : list expr) : option (list (nat * ptype * value)) :=
  match l with
  | [] => Some []
  | e :: q => let* x := eq_of e in let* xs := eqs_of q in Some (x :: xs)
  end.
Definition eslot (x : nat * ptype * value) : nat := fst (fst x).

(* serialize_tree (810-836): the set of the slots as a 64-bit mask; a slot above 63 stops
   the rewriting *)
Fixpoint mask (l : list (nat * ptype * value)) : option Z :=
  match l with
  | [] => Some 0
  | x :: q =>
      if (63 <? eslot x)%nat then None else
      let* m := mask q in Some (Z.lor (Z.shiftl 1 (Z.of_nat (eslot x))) m)
  end.

(* the pairs of an AND sorted by slot (757-760); std::sort keeps the order of equal slots
   up to 16 pairs, beyond that their order is unspecified *)
Fixpoint by_slot (x : nat * ptype * value) (l : list (nat * ptype * value)) :=
  match l with
  | [] => [x]
  | y :: q => if (eslot x <=? eslot y)%nat then x :: l else y :: by_slot x q
  end.
Definition sort_pairs (l : list (nat * ptype * value)) := fold_right by_slot [] l.

Definition eelem (x : nat * ptype * value) : elem := (vt (snd x), snd x).
Definition eleaf (x : nat * ptype * value) : leaf := LSlot (eslot x) (snd (fst x)).

Fixpoint ands_of (l : list expr) : option (list (list (nat * ptype * value))) :=
  match l with
  | [] => Some []
  | EAnd q :: l' =>
      if (63 <? length q)%nat then None else
      match q with
      | [] => None                       (* an AND without children: the model stops here *)
      | _ => let* x := eqs_of q in let* xs := ands_of l' in Some (x :: xs)
      end
  | _ => None
  end.
Fixpoint same_masks (m : Z) (l : list (list (nat * ptype * value))) : bool :=
  match l with
  | [] => true
  | x :: q => (match mask x with Some m' => m' =? m | None => false end) && same_masks m q
  end.

(* or_node_optimize, is_vaild_or_optimize_tree (652-706), has_same_children (708-732),
   change_or_node_to_in (734-808).  [None] where the tree does not qualify. *)
Definition or_to_in (l : list expr) : option pred :=
  match l with
  | EAnd _ :: _ =>
      let* rs := ands_of l in
      match rs with
      | [] => None
      | r0 :: _ =>
          let* m := mask r0 in
          if same_masks m rs
          then Some (RowIn (map eleaf (sort_pairs r0)) (map (fun x => map eelem (sort_pairs x)) rs) false)
          else None
      end
  | ECmp _ _ _ :: _ =>
      let* xs := eqs_of l in
      match xs with
      | [] => None
      | x0 :: _ =>
          let* m := mask [x0] in
          if same_masks m (map (fun x => [x]) xs)
          then Some (In (eleaf x0) (map eelem xs) false)
          else None
      end
  | _ => None
  end.
Definition or_optimize (p : pred) : pred :=
  match p with
  | Other (EOr l) => match or_to_in l with Some q => q | None => p end
  | _ => p
  end.

(* ---- the conditions on one column ---- *)

(* SlotPredicate (src/exec/filter_node.cpp:71-104): positions in the list of conjuncts;
   [sp_ref] is the conjunct and position of the SlotRef kept in slot_ref *)
Record slotpreds := SP { sp_eq : list nat; sp_lt : list nat; sp_gt : list nat; sp_in : list nat;
                         sp_ref : option (nat * nat) }.
Definition sp0 : slotpreds := SP [] [] [] [] None.
Definition add_eq n s := SP (sp_eq s ++ [n]) (sp_lt s) (sp_gt s) (sp_in s) (sp_ref s).
Definition add_lt n s := SP (sp_eq s) (sp_lt s ++ [n]) (sp_gt s) (sp_in s) (sp_ref s).
Definition add_gt n s := SP (sp_eq s) (sp_lt s) (sp_gt s ++ [n]) (sp_in s) (sp_ref s).
Definition add_in n s := SP (sp_eq s) (sp_lt s) (sp_gt s) (sp_in s ++ [n]) (sp_ref s).
Definition set_ref n j s := SP (sp_eq s) (sp_lt s) (sp_gt s) (sp_in s) (Some (n, j)).

Definition is_slot (x : leaf) : bool := match x with LSlot _ _ => true | LVal _ => false end.
Definition at_slot (i : nat) (x : leaf) : bool :=
  match x with LSlot k _ => Nat.eqb k i | LVal _ => false end.

(* src/exec/filter_node.cpp:437-472: what one row condition adds for column [i], for each
   place of the column in the row *)
Fixpoint add_row (i n j : nat) (add : slotpreds -> slotpreds) (xs : list leaf) (s : slotpreds) : slotpreds :=
  match xs with
  | [] => s
  | x :: q => add_row i n (S j) add q (if at_slot i x then add (set_ref n j s) else s)
  end.
(* 375-505: what the conjunct at position [n] adds for column [i] *)
Definition collect1 (i n : nat) (p : pred) (s : slotpreds) : slotpreds :=
  match p with
  | Cmp o _ x _ =>
      if at_slot i x then
        match o with
        | CEq => add_eq n s
        | CGe | CGt => add_gt n s
        | CLe | CLt => add_lt n s
        | CNe => s
        end
      else s
  | In x _ _ => if at_slot i x then add_in n s else s
  | RowCmp o xs _ =>
      if forallb is_slot xs
      then add_row i n 0 (match o with CEq => add_eq n | _ => fun s => s end) xs s else s
  | RowIn xs _ _ => if forallb is_slot xs then add_row i n 0 (add_in n) xs s else s
  | Other _ => s
  end.
Fixpoint collect (i n : nat) (cs : list pred) (s : slotpreds) : slotpreds :=
  match cs with
  | [] => s
  | p :: q => collect i (S n) q (collect1 i n p s)
  end.

(* need_cut (77-79) *)
Definition need_cut (s : slotpreds) : bool :=
  (1 <? length (sp_eq s) + length (sp_lt s) + length (sp_gt s) + length (sp_in s))%nat.

Fixpoint set_nth {A} (n : nat) (x : A) (l : list A) : list A :=
  match l, n with
  | [], _ => []
  | _ :: q, O => x :: q
  | y :: q, S k => y :: set_nth k x q
  end.

(* get_slot_ref_idx (include/expr/row_expr.h:30-55, src/exec/filter_node.cpp:106-117):
   opening the row records the last place of every column *)
Fixpoint slot_idx (i j : nat) (xs : list leaf) : option nat :=
  match xs with
  | [] => None
  | x :: q => match slot_idx i (S j) q with
              | Some k => Some k
              | None => if at_slot i x then Some j else None
              end
  end.

(* replace_slot (118-132): the column becomes the constant.  Replacing deletes the SlotRef
   node; when that is the one slot_ref points to ([freed]), the next row condition reads
   freed memory.  const_pre_calc (src/expr/expr_node.cpp:27-50) refreshes _has_null. *)
Definition elems_null (l : list elem) : bool := existsb (fun e => is_null (snd e)) l.
Definition replace_slot (i : nat) (ref : option (nat * nat)) (w : value) (n : nat)
    (st : list pred * bool) : option (list pred * bool) :=
  let '(cs, freed) := st in
  let gone j := match ref with Some (n', j') => Nat.eqb n n' && Nat.eqb j j' | None => false end in
  match nth_error cs n with
  | Some (Cmp o a _ v) => Some (set_nth n (Cmp o a (LVal w) v) cs, freed)
  | Some (In _ l hn) => Some (set_nth n (In (LVal w) l (hn || elems_null l || is_null w)) cs, freed)
  | Some (RowCmp o xs vs) =>
      if freed then None else
      match slot_idx i 0 xs with
      | None => Some st
      | Some j => Some (set_nth n (RowCmp o (set_nth j (LVal w) xs) vs) cs, freed || gone j)
      end
  | Some (RowIn xs rows hn) =>
      if freed then None else
      match slot_idx i 0 xs with
      | None => Some st
      | Some j =>
          Some (set_nth n (RowIn (set_nth j (LVal w) xs) rows
                             (hn || existsb elems_null rows || is_null w)) cs, freed || gone j)
      end
  | _ => None
  end.
Fixpoint replace_all (i : nat) (ref : option (nat * nat)) (w : value) (ns : list nat)
    (st : list pred * bool) : option (list pred * bool) :=
  match ns with
  | [] => Some st
  | n :: q => let* st' := replace_slot i ref w n st in replace_all i ref w q st'
  end.

(* what predicate_cut leaves: the conjuncts and the positions to drop; [Empty] when it
   returns -1, i.e. the query returns no rows *)
Inductive cutres := Empty | Go (cs : list pred) (cut : list nat).

(* 134-161: an equality decides the column.  The constant at the column's place. *)
Definition eq_value (i : nat) (p : pred) : option (option value) :=
  match p with
  | Cmp _ _ _ v => Some (Some v)
  | RowCmp _ xs vs =>
      match slot_idx i 0 xs with
      | None => Some None
      | Some j => Some (Some (nth j vs vnull))
      end
  | _ => None
  end.
Definition cut_eq (i : nat) (s : slotpreds) (cs : list pred) (cut : list nat) : option cutres :=
  match sp_eq s with
  | [] => None
  | n :: q =>
      let* p := nth_error cs n in
      let* w := eq_value i p in
      match w with
      | None => Some (Go cs cut)
      | Some w =>
          let* (cs', _) := replace_all i (sp_ref s) w (q ++ sp_lt s ++ sp_gt s ++ sp_in s) (cs, false) in
          Some (Go cs' cut)
      end
  end.

(* 163-255: several IN lists.  The constants of an IN list for the column: their text and
   value; for a row list those at the column's place. *)
Fixpoint texts (l : list value) : option (list (list Z * value)) :=
  match l with
  | [] => Some []
  | v :: q => let* s := get_string v in let* ss := texts q in Some ((s, v) :: ss)
  end.
Definition in_col (i : nat) (p : pred) : option (list value) :=
  match p with
  | In _ l _ => Some (map snd l)
  | RowIn xs rows _ =>
      let* j := slot_idx i 0 xs in
      if forallb (fun l => Nat.ltb j (length l)) rows
      then Some (map (fun l => nth j (map snd l) vnull) rows) else None
  | _ => None
  end.
Definition is_in (p : pred) : bool := match p with In _ _ _ => true | _ => false end.

(* 169-192: and_map *)
Definition first_map (i : nat) (p : pred) : option (kv value) :=
  let* vs := in_col i p in
  let* ts := texts vs in
  Some (fold_left (fun m e => kput (fst e) (snd e) m) ts []).
(* 193-232: intersection with the other lists; the lists on the column alone are cut *)
Fixpoint meet (i : nat) (cs : list pred) (ns : list nat) (m : kv value) (cut : list nat)
    : option (kv value * list nat) :=
  match ns with
  | [] => Some (m, cut)
  | n :: q =>
      let* p := nth_error cs n in
      let* vs := in_col i p in
      let* ts := texts vs in
      let m' := fold_left (fun o e =>
                  match kget (fst e) m with
                  | Some v => kput (fst e) v o
                  | None => o
                  end) ts [] in
      meet i cs q m' (if is_in p then cut ++ [n] else cut)
  end.
(* 236-264: the constants that satisfy every bound on the column *)
Definition put (w : value) (p : pred) : pred :=
  match p with Cmp o a _ v => Cmp o a (LVal w) v | _ => p end.
Fixpoint all_hold (cs : list pred) (w : value) (ns : list nat) : option bool :=
  match ns with
  | [] => Some true
  | n :: q =>
      let* p := nth_error cs n in
      let* v := peval (fun _ => vnull) (put w p) in
      let* b := all_hold cs w q in
      Some (negb (is_null v) && get_bool v && b)
  end.
Fixpoint keep_keys (cs : list pred) (ns : list nat) (m : kv value) : option (list (list Z)) :=
  match m with
  | [] => Some []
  | (k, v) :: q =>
      let* b := all_hold cs v ns in
      let* ks := keep_keys cs ns q in
      Some (if b then k :: ks else ks)
  end.
(* 268-294: list entries whose text at the column is not kept are deleted.  Every bound is
   cut, so that it now holds a constant (238, 252) does not matter. *)
Definition kept (keep : list (list Z)) (v : value) : bool :=
  match get_string v with Some s => existsb (beqb s) keep | None => false end.
Definition trim (i : nat) (keep : list (list Z)) (p : pred) : pred :=
  match p with
  | In x l hn => In x (filter (fun e => kept keep (snd e)) l) hn
  | RowIn xs rows hn =>
      match slot_idx i 0 xs with
      | Some j => RowIn xs (filter (fun l => kept keep (nth j (map snd l) vnull)) rows) hn
      | None => p
      end
  | _ => p
  end.
Fixpoint trim_all (i : nat) (keep : list (list Z)) (ns : list nat) (cs : list pred) : list pred :=
  match ns with
  | [] => cs
  | n :: q =>
      trim_all i keep q
        (match nth_error cs n with Some p => set_nth n (trim i keep p) cs | None => cs end)
  end.
Definition cut_in (i : nat) (s : slotpreds) (cs : list pred) (cut : list nat) : option cutres :=
  match sp_in s with
  | [] => None
  | n :: q =>
      let* p := nth_error cs n in
      let* m0 := first_map i p in
      let* (m, cut1) := meet i cs q m0 cut in
      match m with
      | [] => Some Empty
      | _ =>
          let* keep := keep_keys cs (sp_lt s ++ sp_gt s) m in
          match keep with
          | [] => Some Empty
          | _ =>
              (* a list on the column alone at a later place is cut, so trimming it too
                 changes nothing; the code leaves it *)
              Some (Go (trim_all i keep (n :: filter (fun k =>
                          match nth_error cs k with Some p' => negb (is_in p') | None => false end) q) cs)
                       (cut1 ++ sp_lt s ++ sp_gt s))
          end
      end
  end.

(* 296-341: only bounds.  lt_le_less and gt_ge_less (80-103) *)
Definition bound (cs : list pred) (n : nat) : option (cmpop * value) :=
  match nth_error cs n with Some (Cmp o _ _ v) => Some (o, v) | _ => None end.
Definition strict (o : cmpop) : bool := match o with CLt | CGt => true | _ => false end.
Definition less (sg : Z) (a b : cmpop * value) : option bool :=
  let* c := compare_diff_type (snd a) (snd b) in
  Some ((sg * c <? 0) || ((c =? 0) && strict (fst a))).

Fixpoint bounds (cs : list pred) (ns : list nat) : option (list (nat * (cmpop * value))) :=
  match ns with
  | [] => Some []
  | n :: q => let* b := bound cs n in let* bs := bounds cs q in Some ((n, b) :: bs)
  end.

(* std::sort of libstdc++ on at most 16 elements (insertion sort): an element that is less
   than the first goes to the front, else it moves down from the back while it is less *)
Section Sort.
  Variable A : Type.
  Variable lt : A -> A -> option bool.
  (* [back] is the sorted part, last element first *)
  Fixpoint down (x : A) (back : list A) : option (list A) :=
    match back with
    | [] => Some [x]
    | y :: q => let* b := lt x y in
                if b then let* q' := down x q in Some (y :: q') else Some (x :: back)
    end.
  Definition insert (x : A) (l : list A) : option (list A) :=
    match l with
    | [] => Some [x]
    | y :: _ => let* b := lt x y in
                if b then Some (x :: l) else let* back := down x (rev l) in Some (rev back)
    end.
  Fixpoint isort (done rest : list A) : option (list A) :=
    match rest with
    | [] => Some done
    | x :: q => let* d := insert x done in isort d q
    end.
  (* no two of the elements are each less than the other *)
  Fixpoint one_way (l : list A) : bool :=
    match l with
    | [] => true
    | x :: q =>
        forallb (fun y => match lt x y, lt y x with
                          | Some a, Some b => negb (a && b)
                          | _, _ => false
                          end) q && one_way q
    end.
  (* beyond 16 elements std::sort relies on a strict order and runs out of bounds
     otherwise *)
  Definition sorted (l : list A) : option (list A) :=
    if (length l <=? 16)%nat || one_way l then isort [] l else None.
End Sort.

Definition sort_bounds (sg : Z) (cs : list pred) (ns : list nat) : option (list nat) :=
  let* bs := bounds cs ns in
  let* l := sorted _ (fun a b => less sg (snd a) (snd b)) bs in
  Some (map fst l).

Definition cut_range (s : slotpreds) (cs : list pred) (cut : list nat) : option cutres :=
  let* ls := sort_bounds 1 cs (sp_lt s) in
  let* gs := sort_bounds (-1) cs (sp_gt s) in
  let cut' := cut ++ tl ls ++ tl gs in
  match ls, gs with
  | l :: _, g :: _ =>
      let* (lo, lv) := bound cs l in
      let* (go, gv) := bound cs g in
      let* c := compare_diff_type lv gv in
      if c <? 0 then Some Empty
      else if c =? 0 then
        if negb (strict lo) && negb (strict go) then
          match nth_error cs l with
          | Some (Cmp _ a x v) => Some (Go (set_nth l (Cmp CEq a x v) cs) (cut' ++ [g]))
          | _ => None
          end
        else Some Empty
      else Some (Go cs cut')
  | _, _ => Some (Go cs cut')
  end.

Definition predicate_cut (i : nat) (s : slotpreds) (cs : list pred) (cut : list nat) : option cutres :=
  match sp_eq s, sp_in s with
  | _ :: _, _ => cut_eq i s cs cut
  | [], _ :: _ => cut_in i s cs cut
  | [], [] => cut_range s cs cut
  end.

(* 507-518: the columns in the order of their numbers; [cs0] are the conjuncts the
   conditions were collected from *)
Fixpoint cut_slots (cs0 : list pred) (i left_ : nat) (cs : list pred) (cut : list nat) : option cutres :=
  match left_ with
  | O => Some (Go cs cut)
  | S k =>
      let s := collect i 0 cs0 sp0 in
      if need_cut s then
        let* r := predicate_cut i s cs cut in
        match r with
        | Empty => Some Empty
        | Go cs' cut' => cut_slots cs0 (S i) k cs' cut'
        end
      else cut_slots cs0 (S i) k cs cut
  end.

(* 520-543: cut conjuncts are dropped, constant ones are computed *)
Fixpoint const_expr (e : expr) : bool :=
  match e with
  | ESlot _ _ => false
  | ELit _ => true
  | EAnd l | EOr l => forallb const_expr l
  | EXor a b | ECmp _ a b => const_expr a && const_expr b
  | ENot a | EIsNull a | EIsTrue a => const_expr a
  | EIn x l => const_expr x && forallb const_expr l
  end.
Definition is_val (x : leaf) : bool := negb (is_slot x).
Definition const_pred (p : pred) : bool :=
  match p with
  | Cmp _ _ x _ | In x _ _ => is_val x
  | RowCmp _ xs _ | RowIn xs _ _ => forallb is_val xs
  | Other e => const_expr e
  end.
Fixpoint finish (n : nat) (cs : list pred) (cut : list nat) : option (option (list pred)) :=
  match cs with
  | [] => Some (Some [])
  | p :: q =>
      if existsb (Nat.eqb n) cut then finish (S n) q cut
      else if const_pred p then
        let* v := peval (fun _ => vnull) p in
        if is_null v || negb (get_bool v) then Some None else finish (S n) q cut
      else
        let* rest := finish (S n) q cut in
        Some (option_map (cons p) rest)
  end.

(* highest column number in use, plus one *)
Definition leaf_top (x : leaf) : nat := match x with LSlot i _ => S i | LVal _ => O end.
Definition pred_top (p : pred) : nat :=
  match p with
  | Cmp _ _ x _ | In x _ _ => leaf_top x
  | RowCmp _ xs _ | RowIn xs _ _ => list_max (map leaf_top xs)
  | Other _ => O
  end.

(* FilterNode::expr_optimize (344-544), after type inference: [Some None] sets
   return_empty *)
Definition optimize (cs : list pred) : option (option (list pred)) :=
  let cs1 := map or_optimize cs in
  let* r := cut_slots cs1 0 (list_max (map pred_top cs1)) cs1 [] in
  match r with
  | Empty => Some None
  | Go cs2 cut => finish 0 cs2 cut
  end.
