(* Partitioned tables: the catalogue of partitions kept by the meta server and the choice of
   partitions made by the frontend.

   Models, of baidu/BaikalDB:
     src/meta_server/meta_util.cpp: compare 9-24, min / max 26-38, check_partition_expr 64-121,
       check_range_partition_info 261-286, check_partition_overlapped 324-374,
       convert_to_partition_range 411-440; include/meta_server/meta_util.h:
       is_specified_partition 119-134, PointerRangeComparator 149-163;
     src/meta_server/schema_manager.cpp: pre_process_for_partition 1391-1583 (CREATE TABLE);
     src/meta_server/table_manager.cpp: add_partition 1405-1662, drop_partition 1745-1792,
       modify_partition 1794-1892, remove_partitions 6441-6465, drop_partition_internal 6484-6594;
     include/common/schema_factory.h: RangePartition::calc_partition 537-608, calc_partitions
       610-700, get_specified_partition_ids 739-783, is_specified_range 904-923;
     src/common/schema_factory.cpp: HashPartition::calc_partition 3567-3581,
       RangePartition::init 3620-3714;
     src/physical_plan/index_selector.cpp: select_partition 1032-1122;
     include/common/expr_value.h: compare 892-942, for values of one type and MAXVALUE.

   Simplifications: partition names and ids are numbers; bounds are already cast to the column
   type (integers, and dates as integers), so a bound is a number or MAXVALUE; the regions made
   for a new partition, persistence and the asynchronous part of the DDL are not modelled; the
   partitions created from the dynamic attributes are add requests with the dynamic flag;
   std::sort is insertion sort (the order of equal elements is not specified in C++). *)
From Coq Require Import List ZArith Bool.
Import ListNotations.
Local Open Scope Z_scope.

(* ---- values ---- *)
Inductive bnd := BVal (z : Z) | BMax.
(* ExprValue::compare, expr_value.h 892-942, between two bounds: the sign *)
Definition bcmp (a b : bnd) : comparison :=
  match a, b with
  | BMax, BMax => Eq
  | BMax, BVal _ => Gt
  | BVal _, BMax => Lt
  | BVal x, BVal y => x ?= y
  end.
(* the same, of a column value (None is NULL) with a bound: MAXVALUE is tested first, NULL is
   below every other value *)
Definition vcmp (v : option Z) (b : bnd) : comparison :=
  match b, v with
  | BMax, _ => Lt
  | BVal _, None => Lt
  | BVal y, Some x => x ?= y
  end.
(* meta_util.cpp 26-38 *)
Definition bmin (a b : bnd) : bnd := match bcmp a b with Gt => b | _ => a end.
Definition bmax (a b : bnd) : bnd := match bcmp a b with Gt => a | _ => b end.

(* ---- the catalogue ---- *)
(* pb::RangePartitionType *)
Inductive ptype := TDefault | TNew | TAdditional.
Definition ptype_eqb (a b : ptype) : bool :=
  match a, b with TDefault, TDefault | TNew, TNew | TAdditional, TAdditional => true | _, _ => false end.
Definition ptype_num (a : ptype) : Z := match a with TDefault => 0 | TNew => 1 | TAdditional => 2 end.

(* pb::RangePartitionInfo *)
Record part := { p_name : Z; p_id : Z; p_type : ptype; p_cold : bool; p_left : bnd; p_right : bnd }.
(* pb::PartitionInfo: range_partition_infos, max_range_partition_id,
   primary_range_partition_type, dynamic_partition_attr.isolation; and the least and the
   greatest value of the column type (get_min_partition_value, get_max_partition_value) *)
Record catalog := { c_parts : list part; c_max : Z; c_primary : ptype; c_iso : option Z;
                    c_lo : Z; c_hi : Z }.

(* is_specified_partition, meta_util.h 119-134: which partitions are compared *)
Definition specified_with (p q : part) : bool :=
  if ptype_eqb (p_type p) TAdditional || ptype_eqb (p_type q) TAdditional
  then ptype_eqb (p_type p) (p_type q)
  else if negb (p_cold p) && negb (p_cold q) && negb (ptype_eqb (p_type p) (p_type q)) then false
  else true.

(* check_partition_overlapped, meta_util.cpp 324-374 *)
Definition overlapped (ps : list part) (q : part) : bool :=
  existsb (fun p =>
    if p_name p =? p_name q then false
    else if negb (specified_with p q) then false
    else match bcmp (bmax (p_left p) (p_left q)) (bmin (p_right p) (p_right q)) with Lt => true | _ => false end) ps.

(* check_partition_expr 64-121; upper: lower_or_upper_bound *)
Definition check_bound (lo hi : Z) (upper : bool) (b : bnd) : bool :=
  match b with
  | BMax => true
  | BVal z => if upper then negb ((z <=? lo) || (hi <? z)) else negb ((z <? lo) || (hi <=? z))
  end.
(* check_range_partition_info 261-286, for a partition with range *)
Definition check_range (lo hi : Z) (l r : bnd) : bool :=
  check_bound lo hi false l && check_bound lo hi true r &&
  match bcmp l r with Lt => true | _ => false end.

(* a partition of a request: VALUES LESS THAN b, or VALUES [l, r) *)
Inductive bounds := Less (b : bnd) | Between (l r : bnd).
Record preq := { q_name : Z; q_type : ptype; q_cold : bool; q_bounds : bounds }.

(* PointerRangeComparator, meta_util.h 149-163 *)
Definition part_le (p q : part) : bool :=
  match bcmp (p_right p) (p_right q) with
  | Eq => ptype_num (p_type p) <=? ptype_num (p_type q)
  | Lt => true
  | Gt => false
  end.
Fixpoint insert_part (p : part) (ps : list part) : list part :=
  match ps with
  | [] => [p]
  | q :: ps' => if part_le p q then p :: ps else q :: insert_part p ps'
  end.
Definition sort_parts (ps : list part) : list part := fold_right insert_part [] ps.

Definition mem (n : Z) (ns : list Z) : bool := existsb (Z.eqb n) ns.

(* the loop of add_partition, table_manager.cpp 1471-1547: names seen, partitions, last id;
   None: the request is refused.  convert_to_partition_range gives VALUES LESS THAN the
   least value as left bound. *)
Fixpoint add_loop (lo hi : Z) (dynamic : bool) (names : list Z) (ps : list part) (id : Z)
  (qs : list preq) : option (list part * Z) :=
  match qs with
  | [] => Some (ps, id)
  | q :: qs' =>
      if mem (q_name q) names then
        if dynamic then add_loop lo hi dynamic names ps id qs' else None
      else
        let names := q_name q :: names in
        let '(l, r) := match q_bounds q with Less b => (BVal lo, b) | Between l r => (l, r) end in
        if negb (check_range lo hi l r) then None
        else
          let p := {| p_name := q_name q; p_id := id + 1; p_type := q_type q; p_cold := q_cold q;
                      p_left := l; p_right := r |} in
          if overlapped ps p then
            if dynamic then add_loop lo hi dynamic names ps id qs' else None
          else add_loop lo hi dynamic names (ps ++ [p]) (id + 1) qs'
  end.
(* add_partition, table_manager.cpp 1405-1662 *)
Definition add_partition (c : catalog) (dynamic : bool) (qs : list preq) : option catalog :=
  match add_loop (c_lo c) (c_hi c) dynamic (map p_name (c_parts c)) (c_parts c) (c_max c) qs with
  | None => None
  | Some (ps, id) => Some {| c_parts := sort_parts ps; c_max := id; c_primary := c_primary c;
                             c_iso := c_iso c; c_lo := c_lo c; c_hi := c_hi c |}
  end.

(* partition_name_id_map of drop_partition_internal, 6497-6502 *)
Fixpoint id_of (ps : list part) (n : Z) : option Z :=
  match ps with
  | [] => None
  | p :: ps' => if p_name p =? n then Some (p_id p) else id_of ps' n
  end.
Fixpoint drop_ids (ps : list part) (dynamic : bool) (ns : list Z) : option (list Z) :=
  match ns with
  | [] => Some []
  | n :: ns' =>
      match id_of ps n with
      | Some i => if i =? -1 then (if dynamic then drop_ids ps dynamic ns' else None)
                  else option_map (cons i) (drop_ids ps dynamic ns')
      | None => if dynamic then drop_ids ps dynamic ns' else None
      end
  end.
Definition set_parts (c : catalog) (ps : list part) : catalog :=
  {| c_parts := ps; c_max := c_max c; c_primary := c_primary c; c_iso := c_iso c; c_lo := c_lo c; c_hi := c_hi c |}.
(* drop_partition_internal, 6484-6594, and remove_partitions, 6441-6465 *)
Definition drop_internal (c : catalog) (dynamic : bool) (ns : list Z) : option catalog :=
  let checked ps := if existsb (overlapped ps) ps then None else Some (set_parts c ps) in
  match ns with
  | [] => checked (c_parts c)
  | _ =>
      match drop_ids (c_parts c) dynamic ns with
      | None => None
      | Some ids =>
          match filter (fun p => negb (mem (p_id p) ids)) (c_parts c) with
          | [] => None
          | ps => checked ps
          end
      end
  end.
Definition drop_partition := drop_internal.

(* modify_partition, 1794-1892: for every request (name, is_cold if present) the first
   partition of that name; names to drop are collected from the partitions with the same range *)
Definition bnd_eqb (a b : bnd) : bool := match bcmp a b with Eq => true | _ => false end.
Definition same_range (p q : part) : bool := bnd_eqb (p_left p) (p_left q) && bnd_eqb (p_right p) (p_right q).
Definition set_cold (p : part) (b : bool) : part :=
  {| p_name := p_name p; p_id := p_id p; p_type := p_type p; p_cold := b; p_left := p_left p; p_right := p_right p |}.
(* names of range_partition_map[range_key] except the partition itself; all: the partitions
   before the request *)
Definition siblings (all : list part) (p : part) : list Z :=
  map p_name (filter (fun q => negb (ptype_eqb (p_type q) TAdditional) && same_range q p && negb (p_name q =? p_name p)) all).
Fixpoint cool (primary : ptype) (all : list part) (ps : list part) (n : Z) (cold : option bool)
  : list part * list Z :=
  match ps with
  | [] => ([], [])
  | p :: ps' =>
      if p_name p =? n then
        match cold with
        | None => (ps, [])
        | Some false => (set_cold p false :: ps', [])
        | Some true =>
            if ptype_eqb (p_type p) primary then (set_cold p true :: ps', siblings all p)
            else (ps, [])
        end
      else let '(ps2, ns) := cool primary all ps' n cold in (p :: ps2, ns)
  end.
Definition modify_partition (c : catalog) (dynamic : bool) (rs : list (Z * option bool)) : option catalog :=
  let '(ps, ns) :=
    fold_left (fun a r => let '(ps, ns) := a in
      let '(ps2, ns2) := cool (c_primary c) (c_parts c) ps (fst r) (snd r) in (ps2, ns ++ ns2)) rs (c_parts c, []) in
  drop_internal (set_parts c ps) dynamic ns.

(* CREATE TABLE: pre_process_for_partition, schema_manager.cpp 1391-1583.  For every type the
   VALUES LESS THAN partitions are sorted and chained, then the VALUES [l, r) ones follow.
   The types are taken in this order here (an unordered_map in the code; the tests between
   partitions are symmetric and everything is sorted afterwards). *)
Definition check_req (lo hi : Z) (q : preq) : bool :=
  match q_bounds q with Less b => check_bound lo hi true b | Between l r => check_range lo hi l r end.
Definition mk (q : preq) (l r : bnd) : part :=
  {| p_name := q_name q; p_id := 0; p_type := q_type q; p_cold := q_cold q; p_left := l; p_right := r |}.
Definition less_of (q : preq) : list part := match q_bounds q with Less b => [mk q BMax b] | _ => [] end.
Definition range_of (q : preq) : list part := match q_bounds q with Between l r => [mk q l r] | _ => [] end.
Fixpoint chain (left : bnd) (ps : list part) : list part :=
  match ps with
  | [] => []
  | p :: ps' =>
      {| p_name := p_name p; p_id := p_id p; p_type := p_type p; p_cold := p_cold p; p_left := left; p_right := p_right p |}
      :: chain (p_right p) ps'
  end.
Definition of_type (lo : Z) (qs : list preq) (t : ptype) : list part :=
  let mine := filter (fun q => ptype_eqb (q_type q) t) qs in
  chain (BVal lo) (sort_parts (flat_map less_of mine)) ++ flat_map range_of mine.
Fixpoint add_checked (ps qs : list part) : option (list part) :=
  match qs with
  | [] => Some ps
  | q :: qs' => if overlapped ps q then None else add_checked (ps ++ [q]) qs'
  end.
Fixpoint number (i : Z) (ps : list part) : list part :=
  match ps with
  | [] => []
  | p :: ps' =>
      {| p_name := p_name p; p_id := i; p_type := p_type p; p_cold := p_cold p; p_left := p_left p; p_right := p_right p |}
      :: number (i + 1) ps'
  end.
Fixpoint distinct (ns : list Z) : bool :=
  match ns with [] => true | n :: ns' => negb (mem n ns') && distinct ns' end.
Definition create_partitions (lo hi : Z) (primary : ptype) (iso : option Z) (qs : list preq) : option catalog :=
  if negb (distinct (map q_name qs)) then None
  else if negb (forallb (check_req lo hi) qs) then None
  else match add_checked [] (of_type lo qs TDefault ++ of_type lo qs TNew ++ of_type lo qs TAdditional) with
       | None => None
       | Some [] => None
       | Some ps =>
           Some {| c_parts := number 0 (sort_parts ps); c_max := Z.of_nat (length ps) - 1;
                   c_primary := primary; c_iso := iso; c_lo := lo; c_hi := hi |}
       end.

(* ---- the frontend ---- *)
(* UserInfo: is_request_additional, request_range_partition_type, whether the table is in
   switch_tables *)
Record user := { u_additional : bool; u_type : ptype; u_switch : bool }.
Definition wanted_type (u : user) : ptype :=
  if u_switch u then (if ptype_eqb (u_type u) TDefault then TNew else TDefault) else u_type u.

(* is_isolation, schema_factory.cpp 3694-3701 *)
Definition isolated (c : catalog) (p : part) : bool :=
  match c_iso c with
  | None => false
  | Some i => match bcmp (p_right p) (BVal i) with Gt => false | _ => true end
  end.
(* is_specified_range, schema_factory.h 904-923 *)
Definition specified_range (c : catalog) (u : user) (p : part) : bool :=
  if negb (p_cold p) then
    if u_switch u && isolated c p then ptype_eqb (p_type p) (c_primary c)
    else ptype_eqb (wanted_type u) (p_type p)
  else true.
(* RangePartition::init, schema_factory.cpp 3702-3706 *)
Definition normal (c : catalog) : list part := filter (fun p => negb (ptype_eqb (p_type p) TAdditional)) (c_parts c).
Definition additional (c : catalog) : list part := filter (fun p => ptype_eqb (p_type p) TAdditional) (c_parts c).

Definition within (v : option Z) (p : part) : bool :=
  match vcmp v (p_left p) with Lt => false | _ => match vcmp v (p_right p) with Lt => true | _ => false end end.
Fixpoint find_id (f : part -> bool) (ps : list part) : Z :=
  match ps with [] => -1 | p :: ps' => if f p then p_id p else find_id f ps' end.

(* RangePartition::calc_partition, schema_factory.h 537-608; v is the value of the partition
   expression.  The result and *p_another_partition_id (-1 before the call). *)
Definition calc_partition (c : catalog) (u : user) (v : option Z) (is_read : bool) : Z * Z :=
  if u_switch u && negb is_read then (-1, -1)
  else if u_additional u then (find_id (within v) (rev (additional c)), -1)
  else
    let id := find_id (fun p => specified_range c u p && within v p) (rev (normal c)) in
    if is_read then
      let other := find_id (within v) (rev (additional c)) in
      if id =? -1 then (other, -1) else (id, other)
    else (id, -1).

(* range_match_fn, schema_factory.h 651-671; None: no bound *)
Definition range_match (l r : option Z) (ropen : bool) (p : part) : bool :=
  match l with
  | Some _ => match vcmp l (p_right p) with Lt => true | _ => false end
  | None => true
  end &&
  match r with
  | Some _ => match vcmp r (p_left p) with Lt => false | Eq => negb ropen | Gt => true end
  | None => true
  end.
(* calc_partitions, schema_factory.h 610-700; slot: the partition expression is the column *)
Definition calc_partitions (c : catalog) (u : user) (slot : bool) (l r : option Z) (ropen is_read : bool)
  : option (list Z) :=
  if negb slot then Some (map p_id (normal c))
  else if u_switch u && negb is_read then None
  else if u_additional u then Some (map p_id (filter (range_match l r ropen) (additional c)))
  else Some (map p_id (filter (fun p => specified_range c u p && range_match l r ropen p) (normal c)) ++
             (if is_read then map p_id (filter (range_match l r ropen) (additional c)) else [])).
(* get_specified_partition_ids, schema_factory.h 739-783 *)
Definition all_partitions (c : catalog) (u : user) (is_read : bool) : option (list Z) :=
  if u_switch u && negb is_read then None
  else if u_additional u then Some (map p_id (additional c))
  else Some (map p_id (filter (specified_range c u) (normal c)) ++ (if is_read then map p_id (additional c) else [])).

(* what the WHERE clause says about the partition column *)
Inductive cond := CNone | CIn (vs : list (option Z)) | CRange (l : option Z) (lopen : bool) (r : option Z) (ropen : bool).
(* select_partition, index_selector.cpp 1061-1120, for a RANGE table; f is the partition
   expression (the identity if slot) *)
Definition select_range (c : catalog) (u : user) (slot : bool) (f : option Z -> option Z) (is_read : bool) (w : cond)
  : option (list Z) :=
  match w with
  | CNone => all_partitions c u is_read
  | CIn vs => Some (flat_map (fun v => let '(i, j) := calc_partition c u (f v) is_read in
                     if i <? 0 then [] else if j =? -1 then [i] else [i; j]) vs)
  | CRange l _ r ropen => calc_partitions c u slot l r ropen is_read
  end.

(* ---- HASH ---- *)
(* the value of the partition column or expression: a number as int64, or something else with
   its 64-bit hash *)
Inductive hval := HNum (z : Z) | HOther (h : Z).
(* HashPartition::calc_partition, schema_factory.cpp 3567-3581: C++ remainder *)
Definition calc_hash (n : Z) (v : hval) : Z :=
  match v with HNum z => Z.rem z n | HOther h => h mod n end.
Inductive hcond := HAll | HIn (vs : list hval).
(* select_partition, index_selector.cpp 1032-1057 and, for one partition, the partition 0
   every scan node starts with *)
Definition select_hash (n : Z) (w : hcond) : option (list Z) :=
  match w with
  | HIn (v :: vs) =>
      if n =? 1 then Some [0]
      else if existsb (fun x => calc_hash n x <? 0) (v :: vs) then None
      else Some (map (calc_hash n) (v :: vs))
  | _ => Some (map Z.of_nat (seq 0 (Z.to_nat n)))
  end.
