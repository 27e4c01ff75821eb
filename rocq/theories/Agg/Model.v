(* GROUP BY and aggregate functions: src/exec/agg_node.cpp, src/expr/agg_fn_call.cpp,
   ExecNode::encode_exprs_key (src/exec/exec_node.cpp:555-571) and the plan made of them
   (src/logical_plan/select_planner.cpp:594-705, src/physical_plan/separate.cpp:240-262).

   Not modelled: HLL and t-digest sketches, MULTI_GROUP_CONCAT_DISTINCT, vectorized
   execution, memory accounting, SUM over floating-point numbers and text. *)
From Coq Require Import List ZArith Bool.
From Verif Require Import Common.Bytes Common.KV Key.Model Key.Spec.
Import ListNotations.
Local Open Scope Z_scope.

(* A row of the child node: the columns it reads ([None] is NULL). *)
Definition row := nat -> option value.
Definition expr := row -> option value.

(* Contents of a slot of the aggregate tuple: a value, the AvgIntermediate of AVG
   (include/expr/agg_fn_call.h:40-46), a bitmap (its members in increasing order) *)
Inductive aval := AV (v : value) | AAvg (sum count : Z) | ABits (l : list Z).

Inductive bitop := BOr | BAnd | BXor.

(* AggFnCall::AggType with the arguments as functions of the row.  SUM and AVG take
   integers; [uns]: the result of SUM is UINT64 (src/expr/agg_fn_call.cpp:99-111).
   GROUP_CONCAT: separator, expressions, ORDER BY keys with ASC.  [FMulti]:
   MULTI_COUNT_DISTINCT and MULTI_SUM_DISTINCT. *)
Inductive fn :=
| FCountStar
| FCount (es : list expr)
| FSum (uns : bool) (e : row -> option Z)
| FAvg (e : row -> option Z)
| FMin (t : coltype) (e : expr)
| FMax (t : coltype) (e : expr)
| FBits (o : bitop) (e : row -> option (list Z))
| FBuild (e : row -> option Z)
| FConcat (sep : list Z) (es : list (row -> option (list Z)))
| FConcatBy (sep : list Z) (es : list (row -> option (list Z))) (keys : list (coltype * expr * bool))
| FMulti (sum : bool) (t : coltype) (e : expr).

(* one AggFnCall: its place in the aggregate tuple, and _is_distinct for the functions
   without a set of their own *)
Record call := Call { c_slot : nat; c_fn : fn; c_distinct : bool }.

(* MemRow: the columns, and for every call the intermediate and the final slot
   (logical_planner.cpp:2001-2033: only AVG and MULTI_* have two) *)
Record mrow := MR { m_src : row; m_int : nat -> option aval; m_fin : nat -> option aval }.
Definition slot_set {A} (f : nat -> A) (i : nat) (v : A) : nat -> A := fun j => if Nat.eqb j i then v else f j.

(* the entries of _intermediate_val_map, _multi_distinct_intermediate_val_map and
   _intermediate_row_batch_map for one group *)
Record aux := Aux { x_bits : option (bool * list Z); x_set : list value; x_batch : list (list (option value) * list Z) }.
Definition aux0 : aux := Aux None [] [].
Record grp := G { g_row : mrow; g_aux : nat -> aux }.

Definition slot (c : call) (g : grp) : option aval := m_int (g_row g) (c_slot c).
Definition set_slot (c : call) (v : option aval) (g : grp) : grp :=
  G (MR (m_src (g_row g)) (slot_set (m_int (g_row g)) (c_slot c) v) (m_fin (g_row g))) (g_aux g).
Definition set_fin (c : call) (v : option aval) (g : grp) : grp :=
  G (MR (m_src (g_row g)) (m_int (g_row g)) (slot_set (m_fin (g_row g)) (c_slot c) v)) (g_aux g).
Definition xget (c : call) (g : grp) : aux := g_aux g (c_slot c).
Definition xset (c : call) (x : aux) (g : grp) : grp := G (g_row g) (slot_set (g_aux g) (c_slot c) x).

(* ---- arithmetic ---- *)

(* ExprValue::add on INT64 and UINT64 (include/common/expr_value.h:840-881) *)
Definition add64 (uns : bool) (x y : Z) : Z := if uns then to_unsigned 64 (x + y) else to_signed 64 (x + y).
(* double addition of integers; [None] where the result may not be exact *)
Definition dadd (x y : Z) : option Z := if Z.abs (x + y) <=? 2 ^ 53 then Some (x + y) else None.

(* ---- bitmaps (roaring): members in increasing order ---- *)
Fixpoint bins (x : Z) (l : list Z) : list Z :=
  match l with
  | [] => [x]
  | y :: q => match x ?= y with Lt => x :: l | Eq => l | Gt => y :: bins x q end
  end.
Definition bmem (x : Z) (l : list Z) : bool := existsb (Z.eqb x) l.
Definition bor (a b : list Z) : list Z := fold_left (fun l x => bins x l) b a.
Definition band (a b : list Z) : list Z := filter (fun x => bmem x b) a.
Definition bxor (a b : list Z) : list Z :=
  bor (filter (fun x => negb (bmem x b)) a) (filter (fun x => negb (bmem x a)) b).
Definition bop (o : bitop) : list Z -> list Z -> list Z := match o with BOr => bor | BAnd => band | BXor => bxor end.

(* ---- the set of a MULTI_*_DISTINCT call ---- *)

(* ExprValueUniqSet (include/expr/agg_fn_call.h:23-38): values of one type, equal when
   compare() is 0; floating-point columns are left out *)
Definition veqb (v w : value) : bool :=
  match v, w with VNum x, VNum y => x =? y | VStr a, VStr b => beqb a b | _, _ => false end.
Definition sins (v : value) (s : list value) : list value := if existsb (veqb v) s then s else s ++ [v].
Definition smerge (s t : list value) : list value := fold_left (fun a v => sins v a) t s.

(* proto/common.proto PrimitiveType *)
Definition type_code (t : coltype) : Z :=
  match t with
  | BOOL => 2 | INT8 => 3 | INT16 => 4 | INT32 => 5 | INT64 => 6 | UINT8 => 7 | UINT16 => 8 | UINT32 => 9
  | UINT64 => 10 | FLOAT => 11 | DOUBLE => 12 | STRING => 13 | DATETIME => 14 | TIMESTAMP => 15 | DATE => 16
  | TIME => 18 | OTHER_TYPE => 0
  end.
Definition type_of_code (z : Z) : option coltype :=
  find (fun t => type_code t =? z)
    [BOOL; INT8; INT16; INT32; INT64; UINT8; UINT16; UINT32; UINT64; FLOAT; DOUBLE; STRING; DATETIME; TIMESTAMP; DATE; TIME].
Definition type_size (t : coltype) : nat :=
  match t with
  | BOOL | INT8 | UINT8 => 1
  | INT16 | UINT16 => 2
  | INT32 | TIME | UINT32 | TIMESTAMP | DATE | FLOAT => 4
  | _ => 8
  end.
Definition type_signed (t : coltype) : bool :=
  match t with INT8 | INT16 | INT32 | TIME | INT64 => true | _ => false end.

(* the bytes of an integer in (little-endian) memory *)
Definition put (n : nat) (z : Z) : list Z := le_bytes n (z mod 2 ^ (8 * Z.of_nat n)).
Definition geti32 (l : list Z) : Z := to_signed 32 (le_val (firstn 4 l)).
Definition get_num (t : coltype) (l : list Z) : Z :=
  let w := le_val (firstn (type_size t) l) in
  if type_signed t then to_signed (8 * Z.of_nat (type_size t)) w else w.

(* multi_distinct_serialize (src/expr/agg_fn_call.cpp:1075-1164) *)
Definition ser_item (t : coltype) (v : value) : list Z :=
  match v with
  | VNum z => put (type_size t) z
  | VStr s => put 4 (Z.of_nat (length s)) ++ s
  end.
Definition serialize (t : coltype) (s : list value) : list Z :=
  match s with
  | [] => []
  | _ => let body := type_code t :: flat_map (ser_item t) s in put 4 (Z.of_nat (length body)) ++ body
  end.

(* multi_distinct_unserialize (agg_fn_call.cpp:1166-1253); [left]: bytes up to [end], [None]: the string
   ends before (the reads are not checked), or a type it does not know *)
Fixpoint uns_num (fuel : nat) (t : coltype) (left : Z) (l : list Z) : option (list value) :=
  if left <=? 0 then Some [] else
  match fuel with
  | O => None
  | S f =>
      if (length l <? type_size t)%nat then None else
      match uns_num f t (left - Z.of_nat (type_size t)) (skipn (type_size t) l) with
      | Some vs => Some (VNum (get_num t l) :: vs)
      | None => None
      end
  end.
Fixpoint uns_str (fuel : nat) (left : Z) (l : list Z) : option (list value) :=
  if left <=? 0 then Some [] else
  match fuel with
  | O => None
  | S f =>
      if (length l <? 4)%nat then None else
      let n := geti32 l in
      let l' := skipn 4 l in
      if (n <? 0) || (Z.of_nat (length l') <? n) then None else
      match uns_str f (left - 4 - n) (skipn (Z.to_nat n) l') with
      | Some vs => Some (VStr (firstn (Z.to_nat n) l') :: vs)
      | None => None
      end
  end.
Definition unserialize (l : list Z) : option (list value) :=
  if (length l <? 5)%nat then None else
  match type_of_code (nth 4 l 0) with
  | Some STRING => uns_str (length l) (geti32 l - 1) (skipn 5 l)
  | Some t => uns_num (length l) t (geti32 l - 1) (skipn 5 l)
  | None => None
  end.

(* ---- ORDER BY inside GROUP_CONCAT ---- *)

(* MemRowCompare::compare (src/mem_row/mem_row_compare.cpp:18-39); NULL is first where the
   order is ascending (agg_fn_call.cpp:300-301) *)
Fixpoint key_compare (ks : list (coltype * bool)) (a b : list (option value)) : comparison :=
  match ks, a, b with
  | (t, asc) :: ks', x :: a', y :: b' =>
      match x, y with
      | None, None => key_compare ks' a' b'
      | None, Some _ => if asc then Lt else Gt
      | Some _, None => if asc then Gt else Lt
      | Some v, Some w =>
          match value_compare t v w with
          | Eq => key_compare ks' a' b'
          | c => if asc then c else CompOpp c
          end
      end
  | _, _, _ => Eq
  end.
Definition batch_row := (list (option value) * list Z)%type.
(* Sorter (modelled in Sort/): here an insertion sort that keeps the order of equal keys *)
Fixpoint insert_by (ks : list (coltype * bool)) (x : batch_row) (l : list batch_row) : list batch_row :=
  match l with
  | [] => [x]
  | y :: q => match key_compare ks (fst x) (fst y) with Gt => y :: insert_by ks x q | _ => x :: l end
  end.
Definition sort_by (ks : list (coltype * bool)) (l : list batch_row) : list batch_row :=
  fold_right (insert_by ks) [] l.
Definition key_types (keys : list (coltype * expr * bool)) : list (coltype * bool) :=
  map (fun k => (fst (fst k), snd k)) keys.
Definition key_values (keys : list (coltype * expr * bool)) (r : row) : list (option value) :=
  map (fun k => snd (fst k) r) keys.

(* the strings of a row (agg_fn_call.cpp:678-686): [None] when all expressions are NULL *)
Fixpoint strings (es : list (row -> option (list Z))) (r : row) : option (list Z) :=
  match es with
  | [] => None
  | e :: q =>
      match e r, strings q r with
      | Some s, Some u => Some (s ++ u)
      | Some s, None => Some s
      | None, o => o
      end
  end.
(* agg_fn_call.cpp:948-953: the separator only follows a result that is not empty *)
Fixpoint join_nonempty (sep acc : list Z) (l : list (list Z)) : list Z :=
  match l with
  | [] => acc
  | s :: q => join_nonempty sep ((match acc with [] => [] | _ => acc ++ sep end) ++ s) q
  end.

(* ---- AggFnCall ---- *)

Definition zero : aval := AV (VNum 0).

(* is_initialize (agg_fn_call.cpp:323-367) *)
Definition is_initialize (c : call) (m : mrow) : bool :=
  if c_distinct c then false else
  match m_int m (c_slot c) with
  | None => true
  | Some v =>
      match c_fn c, v with
      | (FCountStar | FCount _), AV (VNum 0) => true
      | FAvg _, AAvg 0 0 => true
      | FMulti _ _ _, AV (VStr []) => true
      | _, _ => false
      end
  end.

(* initialize (agg_fn_call.cpp:370-494) *)
Definition or_slot (c : call) (v : option aval) (g : grp) : grp :=
  match slot c g with None => set_slot c v g | Some _ => g end.
Definition initialize (only_count : bool) (c : call) (g : grp) : grp :=
  match c_fn c with
  | FCountStar | FCount _ => or_slot c (Some zero) g
  | f =>
      if only_count then g else
      match f with
      | FAvg _ => match slot c g with None => set_fin c None (set_slot c (Some (AAvg 0 0)) g) | Some _ => g end
      | FMulti _ _ _ => match slot c g with None => set_fin c None g | Some _ => g end
      | FBits _ _ | FBuild _ =>
          match x_bits (xget c g) with
          | Some _ => g
          | None =>
              let assign := match f with FBits BAnd _ => false | _ => true end in
              let v := match slot c g with Some (ABits l) => l | _ => [] end in
              xset c (Aux (Some (assign, v)) (x_set (xget c g)) (x_batch (xget c g))) (set_slot c (Some (ABits v)) g)
          end
      | _ => g
      end
  end.

Definition bits_val (c : call) (g : grp) : bool * list Z :=
  match x_bits (xget c g) with Some b => b | None => (false, []) end.
Definition set_bits (c : call) (b : bool * list Z) (g : grp) : grp :=
  xset c (Aux (Some b) (x_set (xget c g)) (x_batch (xget c g))) g.
Definition set_set (c : call) (s : list value) (g : grp) : grp :=
  xset c (Aux (x_bits (xget c g)) s (x_batch (xget c g))) g.
Definition add_batch (c : call) (b : batch_row) (g : grp) : grp :=
  xset c (Aux (x_bits (xget c g)) (x_set (xget c g)) (x_batch (xget c g) ++ [b])) g.

(* the better of the stored and the new value (agg_fn_call.cpp:536-555, 803-822) *)
Definition better (up : bool) (t : coltype) (old : option aval) (v : value) : option aval :=
  match old with
  | Some (AV w) =>
      match value_compare t w v, up with
      | Gt, false | Lt, true => Some (AV v)
      | _, _ => old
      end
  | _ => Some (AV v)
  end.
Definition add_slot (uns : bool) (old : option aval) (z : Z) : option aval :=
  match old with
  | Some (AV (VNum x)) => Some (AV (VNum (add64 uns x z)))
  | _ => Some (AV (VNum (if uns then to_unsigned 64 z else to_signed 64 z)))
  end.
Definition concat_slot (sep : list Z) (old : option aval) (s : list Z) : option aval :=
  match old with
  | Some (AV (VStr x)) => Some (AV (VStr (x ++ sep ++ s)))
  | _ => Some (AV (VStr s))
  end.
(* the count of COUNT: result._u.int64_val++ (agg_fn_call.cpp:498-515) *)
Definition incr (old : option aval) : option aval :=
  match old with Some (AV (VNum n)) => Some (AV (VNum (add64 false n 1))) | o => o end.
Definition bit_step (o : bitop) (b : bool * list Z) (l : list Z) : bool * list Z :=
  match o with
  | BAnd => if fst b then (true, band (snd b) l) else (true, l)
  | _ => (fst b, bop o (snd b) l)
  end.

(* update (agg_fn_call.cpp:496-718) with the row [r]; [None]: a sum that may not be exact *)
Definition update (c : call) (r : row) (g : grp) : option grp :=
  match c_fn c with
  | FCountStar => Some (set_slot c (incr (slot c g)) g)
  | FCount es => Some (if existsb (fun e : expr => match e r with None => true | _ => false end) es then g
                       else set_slot c (incr (slot c g)) g)
  | FSum uns e => Some (match e r with Some z => set_slot c (add_slot uns (slot c g) z) g | None => g end)
  | FAvg e =>
      match e r with
      | None => Some g
      | Some z =>
          match slot c g with
          | Some (AAvg s n) =>
              match dadd s z with Some s' => Some (set_slot c (Some (AAvg s' (n + 1))) g) | None => None end
          | _ => None
          end
      end
  | FMin t e => Some (match e r with Some v => set_slot c (better false t (slot c g) v) g | None => g end)
  | FMax t e => Some (match e r with Some v => set_slot c (better true t (slot c g) v) g | None => g end)
  | FBits o e => Some (match e r with Some l => set_bits c (bit_step o (bits_val c g) l) g | None => g end)
  | FBuild e =>
      Some (match e r with
            | Some z => set_bits c (fst (bits_val c g), bins (to_unsigned 32 z) (snd (bits_val c g))) g
            | None => g
            end)
  | FConcat sep es => Some (match strings es r with Some s => set_slot c (concat_slot sep (slot c g) s) g | None => g end)
  | FConcatBy sep es keys =>
      Some (match strings es r with Some s => add_batch c (key_values keys r, s) g | None => g end)
  | FMulti _ _ e => Some (match e r with Some v => set_set c (sins v (x_set (xget c g))) g | None => g end)
  end.

(* merge (agg_fn_call.cpp:719-926): [src] is the row of the child, [same] when it is also the row of the
   group (its first row).  The slot is read after initialize. *)
Definition merge (c : call) (same : bool) (src : mrow) (g : grp) : option grp :=
  if c_distinct c then update c (m_src src) g else
  let sv := if same then slot c g else m_int src (c_slot c) in
  match c_fn c with
  | FConcatBy sep es keys =>
      Some (match sv with Some (AV (VStr s)) => add_batch c (key_values keys (m_src src), s) g | _ => g end)
  | f =>
      if same then
        match f, sv with
        | (FBits _ _ | FBuild _), Some (ABits l) => Some (set_bits c (true, l) g)
        | FMulti _ _ _, Some (AV (VStr b)) =>
            match unserialize b with Some s => Some (set_set c (smerge (x_set (xget c g)) s) g) | None => None end
        | _, _ => Some g
        end
      else
        match f, sv with
        | _, None => Some g
        | (FCountStar | FCount _), Some (AV (VNum z)) => Some (set_slot c (add_slot false (slot c g) z) g)
        | FSum uns _, Some (AV (VNum z)) => Some (set_slot c (add_slot uns (slot c g) z) g)
        | FAvg _, Some (AAvg s n) =>
            match slot c g with
            | Some (AAvg s0 n0) =>
                match dadd s0 s with Some s' => Some (set_slot c (Some (AAvg s' (n0 + n))) g) | None => None end
            | _ => None
            end
        | FMin t _, Some (AV v) => Some (set_slot c (better false t (slot c g) v) g)
        | FMax t _, Some (AV v) => Some (set_slot c (better true t (slot c g) v) g)
        | FBits o _, Some (ABits l) => Some (set_bits c (bit_step o (bits_val c g) l) g)
        | FBuild _, Some (ABits l) => Some (set_bits c (fst (bits_val c g), bor (snd (bits_val c g)) l) g)
        | FConcat sep _, Some (AV (VStr s)) => Some (set_slot c (concat_slot sep (slot c g) s) g)
        | FMulti _ _ _, Some (AV (VStr b)) =>
            match unserialize b with Some s => Some (set_set c (smerge (x_set (xget c g)) s) g) | None => None end
        | _, _ => Some g
        end
  end.

(* finalize (agg_fn_call.cpp:927-1073) *)
Definition finalize (merger : bool) (c : call) (g : grp) : option grp :=
  match c_fn c with
  | FConcatBy sep es keys =>
      Some (match x_batch (xget c g) with
            | [] => set_slot c None g
            | b => set_slot c (Some (AV (VStr (join_nonempty sep [] (map snd (sort_by (key_types keys) b)))))) g
            end)
  | FBits _ _ | FBuild _ =>
      Some (set_slot c (if fst (bits_val c g) then Some (ABits (snd (bits_val c g))) else None) g)
  | FAvg _ =>
      Some (set_fin c (match slot c g with Some (AAvg s n) => if n =? 0 then None else Some (AAvg s n) | _ => None end) g)
  | FMulti sum t _ =>
      if negb merger then Some (set_slot c (Some (AV (VStr (serialize t (x_set (xget c g)))))) g)
      else
        match (match slot c g with
               | Some (AV (VStr b)) => match unserialize b with Some s => Some (smerge (x_set (xget c g)) s) | None => None end
               | _ => Some (x_set (xget c g))
               end) with
        | None => None
        | Some s =>
            let r := if sum then fold_left (fun a v => match v with VNum z => add64 false a z | _ => a end) s 0
                     else Z.of_nat (length s) in
            Some (set_slot c (Some (AV (VStr (serialize t s)))) (set_fin c (Some (AV (VNum r))) (set_set c s g)))
        end
  | _ => Some g
  end.

(* the value of the call in the answer: its final slot *)
Definition result (c : call) (m : mrow) : option aval :=
  match c_fn c with FAvg _ | FMulti _ _ _ => m_fin m (c_slot c) | _ => m_int m (c_slot c) end.

(* ---- AggNode ---- *)

Definition groups := list (coltype * expr).
(* encode_exprs_key: [None] where the shift count is negative (a NULL in the ninth or a
   later expression); types append_value does not know add nothing
   (include/common/mut_table_key.h:167-200) *)
Fixpoint group_key_from (i : nat) (flag : Z) (gs : groups) (r : row) : option (Z * list Z) :=
  match gs with
  | [] => Some (flag, [])
  | (t, e) :: q =>
      match e r with
      | None => if (7 <? i)%nat then None else group_key_from (S i) (Z.lor flag (Z.shiftl 1 (7 - Z.of_nat i))) q r
      | Some v =>
          match group_key_from (S i) flag q r with
          | Some (f, b) => Some (f, match encode_field false t v false with Some x => x | None => [] end ++ b)
          | None => None
          end
      end
  end.
Definition group_key (gs : groups) (r : row) : option (list Z) :=
  match group_key_from 0 0 gs r with Some (f, b) => Some (f :: b) | None => None end.

Fixpoint all_calls (f : call -> grp -> option grp) (cs : list call) (g : grp) : option grp :=
  match cs with
  | [] => Some g
  | c :: q => match f c g with Some g' => all_calls f q g' | None => None end
  end.

Definition hmap := list (list Z * grp).
Fixpoint hfind (k : list Z) (h : hmap) : option grp :=
  match h with
  | [] => None
  | (k', g) :: q => if beqb k k' then Some g else hfind k q
  end.
Fixpoint hput (k : list Z) (g : grp) (h : hmap) : hmap :=
  match h with
  | [] => [(k, g)]
  | (k', g') :: q => if beqb k k' then (k, g) :: q else (k', g') :: hput k g q
  end.

(* process_row_batch (agg_node.cpp:507-545) for one row *)
Definition agg_row (merger : bool) (gs : groups) (cs : list call) (h : hmap) (m : mrow) : option hmap :=
  match group_key gs (m_src m) with
  | None => None
  | Some k =>
      match hfind k h with
      | None =>
          if merger && match gs with [] => true | _ => false end && forallb (fun c => is_initialize c m) cs then Some h else
          let g0 := fold_left (fun g c => initialize false c g) cs (G m (fun _ => aux0)) in
          match all_calls (fun c g => if merger then merge c true m g else update c (m_src m) g) cs g0 with
          | Some g => Some (hput k g h)
          | None => None
          end
      | Some g0 =>
          match all_calls (fun c g => if merger then merge c false m g else update c (m_src m) g) cs g0 with
          | Some g => Some (hput k g h)
          | None => None
          end
      end
  end.
Fixpoint agg_rows (merger : bool) (gs : groups) (cs : list call) (h : hmap) (ms : list mrow) : option hmap :=
  match ms with
  | [] => Some h
  | m :: q => match agg_row merger gs cs h m with Some h' => agg_rows merger gs cs h' q | None => None end
  end.

Fixpoint final_all (merger : bool) (cs : list call) (h : hmap) : option (list mrow) :=
  match h with
  | [] => Some []
  | (_, g) :: q =>
      match all_calls (finalize merger) cs g, final_all merger cs q with
      | Some g', Some l => Some (g_row g' :: l)
      | _, _ => None
      end
  end.

(* open (agg_node.cpp:405-505) and get_next (547-573) without LIMIT.  [at_db]: the node runs in the
   frontend, where a row is made up when there is none and no GROUP BY *)
Definition null_row : mrow := MR (fun _ => None) (fun _ => None) (fun _ => None).
Definition stage (at_db merger : bool) (gs : groups) (cs : list call) (ms : list mrow) : option (list mrow) :=
  match agg_rows merger gs cs [] ms with
  | None => None
  | Some h =>
      let h' := match h, gs with
                | [], [] => if at_db || merger
                            then [([0], fold_left (fun g c => initialize true c g) cs (G null_row (fun _ => aux0)))]
                            else []
                | _, _ => h
                end in
      final_all merger cs h'
  end.

(* ---- the plan ---- *)

Definition scan_row (r : row) : mrow := MR r (fun _ => None) (fun _ => None).
(* the storage side of one region *)
Definition store (gs : groups) (cs : list call) (rows : list row) : option (list mrow) :=
  stage false false gs cs (map scan_row rows).
(* what the regions send *)
Fixpoint stores (gs : groups) (cs : list call) (regions : list (list row)) : option (list mrow) :=
  match regions with
  | [] => Some []
  | rows :: q =>
      match store gs cs rows, stores gs cs q with
      | Some a, Some b => Some (a ++ b)
      | _, _ => None
      end
  end.
(* the MERGE_AGG_NODE over a SELECT_MANAGER_NODE (separate.cpp:240-262); [arrived] is what
   the regions sent in the order of its arrival *)
Definition merge_agg (gs : groups) (cs : list call) (arrived : list mrow) : option (list mrow) :=
  stage true true gs cs arrived.

(* create_agg_node (select_planner.cpp:594-705) with distinct or ordered calls: the inner
   node groups by the arguments of the distinct calls and the keys of the ordered
   GROUP_CONCATs as well, and leaves the distinct calls (and the ORDER BY) to the outer one.
   [extra]: those arguments and keys *)
Definition inner_fn (f : fn) : fn := match f with FConcatBy sep es _ => FConcat sep es | _ => f end.
Definition inner_calls (cs : list call) : list call :=
  map (fun c => Call (c_slot c) (inner_fn (c_fn c)) false) (filter (fun c => negb (c_distinct c)) cs).
Definition two_level (gs extra : groups) (cs : list call) (arrived : list mrow) : option (list mrow) :=
  match merge_agg (gs ++ extra) (inner_calls cs) arrived with
  | Some mid => stage true true gs cs mid
  | None => None
  end.
