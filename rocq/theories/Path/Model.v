(* How a WHERE clause becomes ranges of an index and how those ranges are read:
   src/physical_plan/index_selector.cpp (the range of every column), src/exec/access_path.cpp
   (the columns of one index, the conditions that need no further check and the key ranges),
   src/exec/rocksdb_scan_node.cpp (the ranges on the storage side) and
   src/engine/table_iterator.cpp (the keys read for one range of one region).

   All conditions are on the columns of one table.  Not modelled: full-text and vector
   indexes (only the effect of a full-text condition on the ordinary indexes), conditions
   taken from a join, partitions (see Part/), the choice between the possible indexes,
   FLAGS_date_range_to_in (off by default), TTL, column storage and rollup indexes. *)
From Verif Require Import Common.Bytes Common.KV Key.Model Like.Model.
From Verif Require Expr.Value.
Local Open Scope Z_scope.

Inductive cmpop := OEq | ONe | OLt | OLe | OGt | OGe.

(* A row gives every column its value; [None] is NULL. *)
Definition row := nat -> option value.

(* A conjunct of WHERE as type inference leaves it (src/expr/scalar_fn_call.cpp:46-113): a
   column or a row of columns on the left, constants on the right ([None] is NULL).  The
   constants of a comparison are integers of the widest type, of a string or of the type
   of the column.  [CMatch] is MATCH AGAINST or an OR of LIKEs on a column with a full-text
   index, [COther] is anything the planner does not look at. *)
Inductive cond :=
| CCmp (o : cmpop) (f : nat) (k : option value)
| CIn (f : nat) (ks : list (option value))
| CRow (o : cmpop) (fs : list nat) (ks : list (option value))
| CRowIn (fs : list nat) (kss : list (list (option value)))
| CLike (f : nat) (p : option (list Z))
| CMatch (f : nat) (holds : row -> bool)
| COther (holds : row -> bool).

(* include/common/schema_factory.h IndexInfo: the columns of the index and the primary key
   columns appended to the entries of an ordinary index (pk_fields); the flags
   max_in_records_num and cut_huge_in_filter_size (src/exec/access_path.cpp:24-25) *)
Inductive itype := TPrimary | TUniq | TKey.
Record env := Env {
  e_big : bool; ct : nat -> coltype; e_cs : charset;
  e_type : itype; e_cols : list nat; e_pk : list nat;
  e_max_in : nat; e_huge : nat; e_global : bool }.

Section Plan.
Variable E : env.

(* ---- constants ---- *)

(* ExprValue::cast_to (include/common/expr_value.h:502-660): integers are cut to the width
   of the type; text is read by strtoull; floats keep their bits (the conversion of text to
   a float is not modelled) *)
Definition wrap (t : coltype) (z : Z) : Z :=
  match t with
  | INT8 => to_signed 8 z | INT16 => to_signed 16 z
  | INT32 | TIME => to_signed 32 z | INT64 => to_signed 64 z
  | UINT8 => to_unsigned 8 z | UINT16 => to_unsigned 16 z
  | UINT32 | TIMESTAMP | DATE => to_unsigned 32 z
  | UINT64 | DATETIME => to_unsigned 64 z
  | BOOL => if z =? 0 then 0 else 1
  | _ => z
  end.
Definition cast (t : coltype) (v : value) : value :=
  match t, v with
  | STRING, VNum z => VStr (Expr.Value.to_string z)
  | STRING, VStr s => VStr s
  | (FLOAT | DOUBLE | OTHER_TYPE), _ => v
  | _, VNum z => VNum (wrap t z)
  | _, VStr s => VNum (wrap t (Expr.Value.strtoull s))
  end.
(* MutTableKey::append_value (include/common/mut_table_key.h:168-200): the bytes of
   TableRecord::encode_field *)
Definition enc (t : coltype) (v : value) : list Z :=
  match encode_field (e_big E) t v false with Some b => b | None => [] end.
(* append_value(v.cast_to(field.type)) *)
Definition enc_as (f : nat) (v : value) : list Z := enc (ct E f) (cast (ct E f) v).

(* ---- the range of every column ---- *)

(* include/common/range.h:22-53; a condition is named by its place in the list of conjuncts.
   [fr_eq] is eq_in_values, [fr_lids] is left_row_field_ids.  All full-text types
   (MATCH_LANGUAGE, MATCH_BOOLEAN, OR_LIKE) are [RMatch]; like_values and is_exact_like
   only serve full-text indexes. *)
Inductive rtype := RNone | RRange | REq | RLike | RLikeEq | RLikePrefix | RMatch | RIn.
Record frange := FR {
  fr_type : rtype; fr_row : bool; fr_lopen : bool; fr_ropen : bool;
  fr_lids : list nat; fr_rids : list nat; fr_lexpr : option nat; fr_rexpr : option nat;
  fr_left : list value; fr_right : list value; fr_eq : list value; fr_conds : list nat }.
Definition fr0 : frange := FR RNone false false false [] [] None None [] [] [] [].
Definition fmap := nat -> option frange.
Definition fget (m : fmap) (f : nat) : frange := match m f with Some x => x | None => fr0 end.
Definition fset (m : fmap) (f : nat) (x : frange) : fmap := fun g => if Nat.eqb g f then Some x else m g.

(* get_field_hit_type_weight (src/physical_plan/index_selector.cpp:30-41) *)
Definition weight (t : rtype) : nat :=
  match t with REq | RLikeEq => 10 | RIn => 9 | RRange | RLikePrefix => 5 | _ => 0 end%nat.

(* is_index_predicate (204-225) for a comparison *)
Definition index_op (o : cmpop) : bool := match o with ONe => false | _ => true end.

Definition somes {A} (l : list (option A)) : list A :=
  flat_map (fun k => match k with Some v => [v] | None => [] end) l.
(* a row constant without NULL (241-256) *)
Fixpoint all_some {A} (l : list (option A)) : option (list A) :=
  match l with
  | [] => Some []
  | Some v :: q => match all_some q with Some vs => Some (v :: vs) | None => None end
  | None :: _ => None
  end.

Definition is_nil {A} (l : list A) : bool := match l with [] => true | _ => false end.
Definition is_range (t : rtype) : bool := match t with RRange => true | _ => false end.
Definition is_none (t : rtype) : bool := match t with RNone => true | _ => false end.

(* 585-617, 274-333: a lower (upper) bound given by the constants [vs] for the columns [ids]
   ([ids] empty: a single column) *)
Definition set_left (n : nat) (open : bool) (ids : list nat) (vs : list value) (fr : frange) : frange :=
  FR RRange (fr_row fr || negb (is_nil ids)) open (fr_ropen fr) (if is_nil ids then fr_lids fr else ids)
     (fr_rids fr) (Some n) (fr_rexpr fr) vs (fr_right fr) (fr_eq fr) (fr_conds fr).
Definition set_right (n : nat) (open : bool) (ids : list nat) (vs : list value) (fr : frange) : frange :=
  FR RRange (fr_row fr || negb (is_nil ids)) (fr_lopen fr) open (fr_lids fr)
     (if is_nil ids then fr_rids fr else ids) (fr_lexpr fr) (Some n) (fr_left fr) vs (fr_eq fr) (fr_conds fr).
Definition hit_bound (left : bool) (n : nat) (open : bool) (f : nat) (ids : list nat) (vs : list value)
  (m : fmap) : fmap :=
  let fr := fget m f in
  if (5 <? weight (fr_type fr))%nat then m else
  let fr' := if is_range (fr_type fr) then fr else fr0 in
  if left then if is_nil (fr_left fr') then fset m f (set_left n open ids vs fr') else fset m f fr'
  else if is_nil (fr_right fr') then fset m f (set_right n open ids vs fr') else fset m f fr'.

(* 572-584 and 639-658: the values [vs] for one column, replacing what was known *)
Definition eq_range (n : nat) (vs : list value) : frange :=
  FR (match vs with [_] => REq | _ => RIn end) false false false [] [] None None [] [] vs [n].
(* 268-280: the place of a column in a row equality; the conditions already recorded stay *)
Definition add_cond (n : nat) (l : list nat) : list nat := if existsb (Nat.eqb n) l then l else l ++ [n].
Definition row_eq (n : nat) (ids : list nat) (v : value) (fr : frange) : frange :=
  FR REq true (fr_lopen fr) (fr_ropen fr) ids (fr_rids fr) (fr_lexpr fr) (fr_rexpr fr)
     (fr_left fr) (fr_right fr) [v] (add_cond n (fr_conds fr)).
Fixpoint hit_row_eq (n : nat) (ids fs : list nat) (vs : list value) (m : fmap) : fmap :=
  match fs, vs with
  | f :: fs', v :: vs' => hit_row_eq n ids fs' vs' (fset m f (row_eq n ids v (fget m f)))
  | _, _ => m
  end.
(* 339-361 *)
Definition row_in (n : nat) (ids : list nat) (vs : list value) (fr : frange) : frange :=
  FR (match vs with [_] => REq | _ => RIn end) true (fr_lopen fr) (fr_ropen fr) ids (fr_rids fr)
     (fr_lexpr fr) (fr_rexpr fr) (fr_left fr) (fr_right fr) vs [n].
Fixpoint hit_row_in (n : nat) (ids fs : list nat) (idx : nat) (rows : list (list value)) (m : fmap) : fmap :=
  match fs with
  | [] => m
  | f :: fs' =>
      let vs := map (fun l => nth idx l (VNum 0)) rows in
      let fr := fget m f in
      let m' := if negb (is_none (fr_type fr)) && (length (fr_eq fr) <=? length vs)%nat then m
                else fset m f (row_in n ids vs fr) in
      hit_row_in n ids fs' (S idx) rows m'
  end.

(* hit_field_range (515-725), hit_row_field_range (228-368), hit_field_or_like_range and
   hit_match_against_field_range (370-513).  [None]: index_predicate_is_null. *)
Definition hit1 (n : nat) (c : cond) (m : fmap) : option fmap :=
  match c with
  | CCmp o f None => if index_op o then None else Some m
  | CCmp o f (Some v) =>
      let w := cast (ct E f) v in
      Some (match o with
            | OEq => if (10 <? weight (fr_type (fget m f)))%nat then m else fset m f (eq_range n [w])
            | OGt | OGe => hit_bound true n (match o with OGt => true | _ => false end) f [] [w] m
            | OLt | OLe => hit_bound false n (match o with OLt => true | _ => false end) f [] [w] m
            | ONe => m
            end)
  | CIn f ks =>
      let vs := map (cast (ct E f)) (somes ks) in
      match vs with
      | [] => None
      | _ =>
          let fr := fget m f in
          let do_this := match fr_type fr with
                         | RNone => true
                         | REq | RIn => negb (fr_row fr) && (length vs <? length (fr_eq fr))%nat
                         | _ => false
                         end in
          Some (if negb do_this then m
                else if (9 <? weight (fr_type fr))%nat then m else fset m f (eq_range n vs))
      end
  | CRow o fs ks =>
      match all_some ks with
      | None => if index_op o then None else Some m
      | Some vs =>
          Some (match o, fs with
                | OEq, _ => hit_row_eq n fs fs vs m
                | (OGt | OGe), f :: _ => 
                    if negb (is_nil (fr_left (fget m f))) then m
                    else hit_bound true n (match o with OGt => true | _ => false end) f fs vs m
                | (OLt | OLe), f :: _ =>
                    if negb (is_nil (fr_right (fget m f))) then m
                    else hit_bound false n (match o with OLt => true | _ => false end) f fs vs m
                | _, _ => m
                end)
      end
  | CRowIn fs kss =>
      match somes (map all_some kss) with
      | [] => None
      | rows => Some (hit_row_in n fs fs 0 rows m)
      end
  | CLike f None => None
  | CLike f (Some p) =>
      let t := match index_for_like p with IREqual _ => RLikeEq | IRPrefix _ => RLikePrefix | IRAll => RLike end in
      let eq := match index_for_like p with IREqual s | IRPrefix s => [VStr s] | IRAll => [] end in
      Some (if (weight t <? weight (fr_type (fget m f)))%nat then m
            else fset m f (FR t false false false [] [] None None [] [] eq [n]))
  | CMatch f _ =>
      let fr := fget m f in
      Some (fset m f (FR RMatch (fr_row fr) (fr_lopen fr) (fr_ropen fr) (fr_lids fr) (fr_rids fr)
                         (fr_lexpr fr) (fr_rexpr fr) (fr_left fr) (fr_right fr) (fr_eq fr)
                         (add_cond n (fr_conds fr))))
  | COther _ => Some m
  end.
(* the loop over the conjuncts (775-797): a condition that is NULL for every row ends the
   loop and the query returns nothing (121-130) *)
Fixpoint hit_all (n : nat) (cs : list cond) (m : fmap) : option fmap :=
  match cs with
  | [] => Some m
  | c :: q => match hit1 n c m with Some m' => hit_all (S n) q m' | None => None end
  end.

(* ---- the columns of one index (src/exec/access_path.cpp:130-322) ---- *)

(* avaliable_key_fields 139-142 *)
Definition avail : list nat := e_cols E ++ match e_type E with TKey => e_pk E | _ => [] end.

Definition mem (f : nat) (l : list nat) : bool := existsb (Nat.eqb f) l.
Definition add_set (f : nat) (l : list nat) : list nat := if mem f l then l else f :: l.
(* all_in_index (include/exec/access_path.h:92-99) *)
Definition all_in (fs hit : list nat) : bool := forallb (fun f => mem f hit) fs.

(* how many columns of a row condition follow each other in the index (171-182, 65-86) *)
Fixpoint run (av ids : list nat) : nat :=
  match av, ids with
  | a :: av', i :: ids' => if Nat.eqb a i then S (run av' ids') else O
  | _, _ => O
  end.

Record nst := NS {
  n_hit : list nat; n_cut : list nat; n_cnt : nat; n_lcnt : nat; n_rcnt : nat;
  n_lopen : bool; n_ropen : bool; n_like : bool; n_eqin : bool; n_eq : nat;
  n_rows : list (nat * (nat * nat)); n_size : nat }.
Definition ns0 : nst := NS [] [] 0 0 0 false false false true 0 [] 1.

Definition opt_cons (x : option nat) (l : list nat) : list nat := match x with Some n => n :: l | None => l end.
Fixpoint rows_get (n : nat) (l : list (nat * (nat * nat))) : option (nat * nat) :=
  match l with
  | [] => None
  | (k, x) :: q => if Nat.eqb k n then Some x else rows_get n q
  end.
Definition first_cond (fr : frange) : nat := hd O (fr_conds fr).

(* the RANGE case 166-216 *)
Definition normal_range (f : nat) (fr : frange) (s : nst) : nst :=
  let cnt := S (n_cnt s) in
  let hit := add_set f (n_hit s) in
  let idx := n_cnt s in
  let '(hit, cut, lcnt, lopen, idx) :=
    match fr_left fr with
    | [] => (hit, n_cut s, n_lcnt s, n_lopen s, idx)
    | [_] => (hit, opt_cons (fr_lexpr fr) (n_cut s), cnt, fr_lopen fr, idx)
    | _ =>
        let k := run (skipn idx avail) (fr_lids fr) in
        let hit' := fold_left (fun h g => add_set g h) (firstn k (fr_lids fr)) hit in
        if Nat.eqb k (length (fr_lids fr))
        then (hit', opt_cons (fr_lexpr fr) (n_cut s), (idx + k)%nat, fr_lopen fr, (idx + k)%nat)
        else (hit', n_cut s, (idx + k)%nat, false, (idx + k)%nat)
    end in
  let '(hit, cut, rcnt, ropen) :=
    match fr_right fr with
    | [] => (hit, cut, n_rcnt s, n_ropen s)
    | [_] => (hit, opt_cons (fr_rexpr fr) cut, cnt, fr_ropen fr)
    | _ =>
        let k := run (skipn idx avail) (fr_rids fr) in
        let hit' := fold_left (fun h g => add_set g h) (firstn k (fr_rids fr)) hit in
        if Nat.eqb k (length (fr_rids fr))
        then (hit', opt_cons (fr_rexpr fr) cut, (idx + k)%nat, fr_ropen fr)
        else (hit', cut, (idx + k)%nat, false)
    end in
  NS hit cut cnt lcnt rcnt lopen ropen (n_like s) false (n_eq s) (n_rows s) (n_size s).

(* EQ, LIKE_EQ and LIKE_PREFIX 218-246 *)
Definition normal_eq (f : nat) (fr : frange) (s : nst) : nst :=
  let cnt := S (n_cnt s) in
  let hit := add_set f (n_hit s) in
  let prefix := match fr_type fr with RLikePrefix => true | _ => false end in
  let cut := if prefix then n_cut s
             else if fr_row fr && negb (all_in (fr_lids fr) hit) then n_cut s
             else fr_conds fr ++ n_cut s in
  NS hit cut cnt cnt cnt false false (n_like s || prefix) (n_eqin s && negb prefix)
     (if prefix then n_eq s else S (n_eq s)) (n_rows s) (n_size s).

(* IN 250-302; [None] where the column is not used *)
Definition normal_in (f : nat) (fr : frange) (s : nst) : option nst :=
  let n := first_cond fr in
  let sz := length (fr_eq fr) in
  let next :=
    match (if fr_row fr then rows_get n (n_rows s) else None) with
    | Some (off, hits) =>
        if negb (is_nil (fr_eq fr)) && Nat.eqb (Nat.modulo (n_size s) sz) 0
        then Some ((n, (off, S hits)) :: n_rows s, n_size s) else None
    | None =>
        if (0 <? e_huge E)%nat && (match e_type E with TKey => negb (e_global E) | _ => false end)
           && (e_huge E <? sz)%nat then None
        else if (1 <? n_size s)%nat && (e_max_in E <? n_size s * sz)%nat then None
        else Some (if fr_row fr then (n, (n_size s, 1%nat)) :: n_rows s else n_rows s, (sz * n_size s)%nat)
    end in
  match next with
  | None => None
  | Some (rows, size) =>
      let cnt := S (n_cnt s) in
      let hit := add_set f (n_hit s) in
      let full := match rows_get n rows with
                  | Some (_, hits) => Nat.eqb hits (length (fr_lids fr))
                  | None => false
                  end in
      let cut := if fr_row fr && negb (all_in (fr_lids fr) hit && full) then n_cut s
                 else fr_conds fr ++ n_cut s in
      Some (NS hit cut cnt cnt cnt false false (n_like s) (n_eqin s) (S (n_eq s)) rows size)
  end.

(* the loop 143-305 *)
Fixpoint normal_loop (m : fmap) (fs : list nat) (s : nst) : nst :=
  match fs with
  | [] => s
  | f :: q =>
      if mem f (n_hit s) then s else
      match m f with
      | None => s
      | Some fr =>
          match fr_type fr with
          | RRange => normal_range f fr s
          | REq | RLikeEq => normal_loop m q (normal_eq f fr s)
          | RLikePrefix =>
              match ct E f with STRING => normal_eq f fr s | _ => s end
          | RLike => s
          | RIn => match normal_in f fr s with Some s' => normal_loop m q s' | None => s end
          | RNone | RMatch => normal_loop m q s
          end
      end
  end.

(* check_sort_use_index 88-118 for the columns of ORDER BY; for a unique index the primary
   key columns follow as well (pk_fields of the primary key itself is empty) *)
Definition sort_fields : list nat := e_cols E ++ match e_type E with TPrimary => [] | _ => e_pk E end.
Fixpoint find_field (f : nat) (l : list nat) : option nat :=
  match l with
  | [] => None
  | g :: q => if Nat.eqb g f then Some O else match find_field f q with Some i => Some (S i) | None => None end
  end.
Definition sort_use_index (order : list nat) (s : nst) : bool :=
  match order with
  | [] => false
  | f :: _ =>
      match find_field f sort_fields with
      | None => false
      | Some i => (i <=? n_eq s)%nat && Nat.eqb (run (skipn i sort_fields) order) (length order)
      end
  end.

(* ---- the key ranges (src/exec/access_path.cpp:345-607) ---- *)

Definition krange := (list Z * list Z)%type.

(* calc_row_expr_range 65-86: the constants of the columns that follow each other *)
Fixpoint row_bytes (fs : list nat) (vs : list value) : list Z :=
  match fs, vs with
  | f :: fs', v :: vs' => enc_as f v ++ row_bytes fs' vs'
  | _, _ => []
  end.
Definition bound_bytes (idx : nat) (f : nat) (ids : list nat) (vs : list value) : list Z :=
  match vs with
  | [] => []
  | [v] => enc_as f v
  | _ => row_bytes (firstn (run (skipn idx avail) ids) ids) vs
  end.
(* range_func 378-397 *)
Definition range_func (idx : nat) (f : nat) (fr : frange) (k : krange) : krange :=
  (fst k ++ bound_bytes idx f (fr_lids fr) (fr_left fr), snd k ++ bound_bytes idx f (fr_rids fr) (fr_right fr)).

(* the flat fill of a further column of a row IN 459-479 *)
Fixpoint fill (f : nat) (vs : list value) (off vi i : nat) (recs : list krange) : list krange :=
  match recs with
  | [] => []
  | (l, r) :: q =>
      (l ++ enc_as f (nth vi vs (VNum 0)), r) ::
      (if Nat.eqb (S i) off then fill f vs off (Nat.modulo (S vi) (length vs)) 0 q
       else fill f vs off vi (S i) q)
  end.

(* in_records is [k_recs], empty until the first IN *)
Record kst := KS { k_l : list Z; k_r : list Z; k_recs : list krange; k_rows : list (nat * nat) }.
Fixpoint off_get (n : nat) (l : list (nat * nat)) : option nat :=
  match l with
  | [] => None
  | (k, x) :: q => if Nat.eqb k n then Some x else off_get n q
  end.

Definition range_in (f : nat) (fr : frange) (s : kst) : option kst :=
  let n := first_cond fr in
  match (if fr_row fr then off_get n (k_rows s) else None) with
  | Some off =>
      if negb (is_nil (fr_eq fr)) && Nat.eqb (Nat.modulo (length (k_recs s)) (length (fr_eq fr))) 0
      then Some (KS (k_l s) (k_r s) (fill f (fr_eq fr) off 0 0 (k_recs s)) (k_rows s))
      else None
  | None =>
      let recs := match k_recs s with [] => [(k_l s, [])] | l => l end in
      let rows := if fr_row fr then (n, length recs) :: k_rows s else k_rows s in
      let comb := flat_map (fun v => map (fun rg => (fst rg ++ enc_as f v, [])) recs) (fr_eq fr) in
      Some (KS (k_l s) (k_r s) comb rows)
  end.

(* the loop 366-541; [size] is hit_index_field_ids.size(), [like] is _like_prefix; [None] is
   the return at 477-481 *)
Fixpoint range_loop (m : fmap) (size : nat) (like : bool) (fs : list nat) (cnt : nat) (s : kst) : option kst :=
  match fs with
  | [] => Some s
  | f :: q =>
      let cnt := S cnt in
      if (size <? cnt)%nat then Some s else
      match m f with
      | None => Some s
      | Some fr =>
          match fr_type fr with
          | RRange =>
              let idx := (cnt - 1)%nat in
              match k_recs s with
              | [] => let k := range_func idx f fr (k_l s, k_r s) in Some (KS (fst k) (snd k) [] (k_rows s))
              | recs => Some (KS (k_l s) (k_r s) (map (fun rg => range_func idx f fr (fst rg, fst rg)) recs) (k_rows s))
              end
          | REq | RLikeEq | RLikePrefix =>
              let v := hd (VNum 0) (fr_eq fr) in
              let prefix := like && match fr_type fr with RLikePrefix => true | _ => false end in
              let s' :=
                if prefix then
                  let b := match v with VStr p => app_string_prefix p | VNum z => Expr.Value.to_string z end in
                  match k_recs s with
                  | [] => KS (k_l s ++ b) (k_r s ++ b) [] (k_rows s)
                  | recs => KS (k_l s) (k_r s) (map (fun rg => (fst rg ++ b, (fst rg ++ b) ++ b)) recs) (k_rows s)
                  end
                else
                  match k_recs s with
                  | [] => KS (k_l s ++ enc_as f v) (k_r s ++ enc_as f v) [] (k_rows s)
                  | recs => KS (k_l s) (k_r s) (map (fun rg => (fst rg ++ enc_as f v, snd rg)) recs) (k_rows s)
                  end in
              range_loop m size like q cnt s'
          | RIn => match range_in f fr s with Some s' => range_loop m size like q cnt s' | None => None end
          | RNone | RLike | RMatch => range_loop m size like q cnt s
          end
      end
  end.

(* the ranges with the same left key are sent once 549-585 *)
Fixpoint dedup (seen : list (list Z)) (l : list krange) : list krange :=
  match l with
  | [] => []
  | rg :: q => if existsb (beqb (fst rg)) seen then dedup seen q else rg :: dedup (fst rg :: seen) q
  end.

(* the null flag in front of the keys of a secondary index 352-356; index columns are NOT
   NULL (src/logical_plan/ddl_planner.cpp:974-979, 2479-2484), so it is zero *)
Definition flag : list Z := match e_type E with TPrimary => [] | _ => [0] end.

Record plan := Plan {
  p_ranges : list krange; p_lopen : bool; p_ropen : bool; p_get : bool; p_sort : bool; p_cut : list nat }.

(* calc_index_range 542-607 and the storage side (src/exec/rocksdb_scan_node.cpp:195-251) *)
Definition make_plan (order : list nat) (m : fmap) : plan :=
  let s := normal_loop m avail ns0 in
  let sort := sort_use_index order s in
  match range_loop m (length (n_hit s)) (n_like s) avail 0 (KS flag flag [] []) with
  | None => Plan [] false false false sort (n_cut s)
  | Some k =>
      let none := Nat.eqb (n_lcnt s) 0 && Nat.eqb (n_rcnt s) 0 in
      let is_eq := n_eqin s && negb none in
      let ranges := if none then [([], [])]
                    else match k_recs k with [] => [(k_l k, k_r k)] | recs => dedup [] recs end in
      Plan (map (fun rg => (fst rg, if is_eq then fst rg else snd rg)) ranges)
           (n_lopen s) (n_ropen s)
           (is_eq && negb (n_like s) && Nat.eqb (n_lcnt s) (length (e_cols E))
            && match e_type E with TKey => false | _ => true end)
           sort (n_cut s)
  end.
Definition plan_for (order : list nat) (cs : list cond) : option plan :=
  match hit_all 0 cs (fun _ => None) with Some m => Some (make_plan order m) | None => None end.

(* ---- reading the keys of one range (src/engine/table_iterator.cpp) ---- *)

Fixpoint starts (p k : list Z) : bool :=
  match p, k with
  | [], _ => true
  | a :: p', b :: k' => (a =? b) && starts p' k'
  | _, [] => false
  end.
Definition ff (n : nat) : list Z := repeat 255 n.

(* What Iterator::open (86-331) computes, without the region and index ids in front of every
   key: _start, _end, the bounds without their suffix, and whether the upper bound is the
   end of the region.  [region] is [start_key, end_key) where the iterator has to respect
   it (primary and global indexes; [e] empty means no end). *)
Record iter := It { it_start : list Z; it_end : list Z; it_lower : list Z; it_upper : list Z;
                    it_lopen : bool; it_ropen : bool; it_isend : bool }.
Definition iter_open (lopen ropen : bool) (rg : krange) (region : option (list Z * list Z)) : option iter :=
  let '(l, r) := rg in
  let lopen := lopen && negb (is_nil l) in
  let ropen := ropen && negb (is_nil r) in
  match region with
  | None => Some (It l r l r lopen ropen false)
  | Some (s, e) =>
      let '(lower, lopen) :=
        if bleb s l then (l, lopen)
        else (s, if negb (is_nil l) && starts l s then lopen else false) in
      let upper :=
        if is_nil e || bltb r e then
          if negb (is_nil r) then if starts r e && negb ropen then e else r else e
        else e in
      if bltb upper lower && negb (starts upper lower) then None
      else Some (It l r lower upper lopen ropen (beqb upper e))
  end.

(* _lower_bound and _upper_bound 229-243 *)
Definition low_key (it : iter) : list Z := it_lower it ++ if it_lopen it then ff 8 else [].
Definition up_key (it : iter) : list Z := it_upper it ++ if it_ropen it then [] else ff 24.
(* 386-397 *)
Definition fits_left (it : iter) (k : list Z) : bool :=
  if it_lopen it then bltb (it_lower it) k && negb (starts (it_start it) k) else bleb (it_lower it) k.
(* 413-440 *)
Definition fits_right (it : iter) (k : list Z) : bool :=
  if it_ropen it then bltb k (it_upper it)
  else if it_isend it then if is_nil (it_upper it) then true else bltb k (it_upper it)
  else bleb k (it_upper it) || starts (it_end it) k.

Fixpoint drop_while {A} (p : A -> bool) (l : list A) : list A :=
  match l with [] => [] | x :: q => if p x then drop_while p q else l end.
Fixpoint take_while {A} (p : A -> bool) (l : list A) : list A :=
  match l with [] => [] | x :: q => if p x then x :: take_while p q else [] end.

(* The entries of the index in key order as a range reads them: Seek, the bound given to
   rocksdb, the skipping at the open end (293-318) and get_next (446-456) *)
Definition visit {A} (key : A -> list Z) (forward : bool) (it : iter) (l : list A) : list A :=
  if forward then
    let l1 := drop_while (fun x => bltb (key x) (low_key it)) l in
    let l2 := take_while (fun x => bltb (key x) (up_key it)) l1 in
    let l3 := if it_lopen it
              then drop_while (fun x => negb (fits_left it (key x)) && fits_right it (key x)) l2 else l2 in
    take_while (fun x => fits_right it (key x)) l3
  else
    let l1 := drop_while (fun x => bltb (up_key it) (key x)) (rev l) in
    let l2 := take_while (fun x => bleb (low_key it) (key x)) l1 in
    let l3 := drop_while (fun x => negb (fits_right it (key x)) && fits_left it (key x)) l2 in
    take_while (fun x => fits_left it (key x)) l3.

(* the key of a row in the index: TableRecord::encode_key and encode_primary_key
   (src/common/table_record.cpp:156-217, 219-245), see Key/ *)
Definition col_bytes (r : row) (f : nat) : list Z :=
  match r f with Some v => enc (ct E f) v | None => [] end.
Definition entry_key (r : row) : list Z := flag ++ flat_map (col_bytes r) avail.

Definition fits_region (region : option (list Z * list Z)) (k : list Z) : bool :=
  match region with
  | None => true
  | Some (s, e) => bleb s k && (is_nil e || bltb k e)
  end.

(* get_next_by_table_get / get_next_by_index_get (src/exec/rocksdb_scan_node.cpp:905-1105)
   look the full key up; get_next_by_table_seek / get_next_by_index_seek iterate *)
Definition read_range (p : plan) (region : option (list Z * list Z)) (forward : bool) (l : list row)
  (rg : krange) : list row :=
  if p_get p then filter (fun r => beqb (entry_key r) (fst rg) && fits_region region (entry_key r)) l
  else match iter_open (p_lopen p) (p_ropen p) rg region with
       | None => []
       | Some it => visit entry_key forward it l
       end.

(* insert_no_cut_condition (include/exec/access_path.h:101-128): the other conditions are
   checked on every row read *)
Fixpoint remaining (n : nat) (cs : list cond) (cut : list nat) : list cond :=
  match cs with
  | [] => []
  | c :: q => if mem n cut then remaining (S n) q cut else c :: remaining (S n) q cut
  end.
End Plan.
