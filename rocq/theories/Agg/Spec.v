(* What GROUP BY and the aggregate functions mean, without the nodes that compute them. *)
From Coq Require Import List ZArith Bool Sorting.Permutation Sorting.Sorted.
From Verif Require Import Common.Bytes Key.Model Key.Spec Agg.Model.
Import ListNotations.
Local Open Scope Z_scope.

(* the values of an expression that are not NULL, row by row *)
Definition nonnull {A} (e : row -> option A) (rows : list row) : list A :=
  flat_map (fun r => match e r with Some v => [v] | None => [] end) rows.
Definition zsum (l : list Z) : Z := fold_right Z.add 0 l.

(* two rows of the same group: each expression NULL on both or equal on both *)
Definition same_column (t : coltype) (a b : option value) : bool :=
  match a, b with
  | None, None => true
  | Some v, Some w => match value_compare t v w with Eq => true | _ => false end
  | _, _ => false
  end.
Definition same_group (gs : groups) (r r' : row) : bool :=
  forallb (fun p => same_column (fst p) (snd p r) (snd p r')) gs.
Definition group_of (gs : groups) (r : row) (rows : list row) : list row := filter (same_group gs r) rows.

(* text of a row in GROUP_CONCAT(e1, e2, ...): NULLs are left out, a row of NULLs gives none *)
Definition row_text (es : list (row -> option (list Z))) (r : row) : option (list Z) :=
  match flat_map (fun e => match e r with Some s => [s] | None => [] end) es with
  | [] => None
  | l => Some (concat l)
  end.
Definition joined (sep : list Z) (l : list (list Z)) : option aval :=
  match l with
  | [] => None
  | s :: q => Some (AV (VStr (s ++ flat_map (fun u => sep ++ u) q)))
  end.

(* ORDER BY: NULL is below every value, DESC turns the order around *)
Definition column_compare (t : coltype) (asc : bool) (a b : option value) : comparison :=
  let c := match a, b with
           | None, None => Eq
           | None, Some _ => Lt
           | Some _, None => Gt
           | Some v, Some w => value_compare t v w
           end in
  if asc then c else CompOpp c.
Fixpoint order_compare (keys : list (coltype * expr * bool)) (r r' : row) : comparison :=
  match keys with
  | [] => Eq
  | (t, e, asc) :: q => match column_compare t asc (e r) (e r') with Eq => order_compare q r r' | c => c end
  end.

(* a bitmap in canonical form *)
Definition increasing (l : list Z) : Prop := StronglySorted Z.lt l.

(* the value of an aggregate function over the rows of a group *)
Definition agg_spec (f : fn) (rows : list row) (v : option aval) : Prop :=
  match f with
  | FCountStar => v = Some (AV (VNum (to_signed 64 (Z.of_nat (length rows)))))
  | FCount es =>
      v = Some (AV (VNum (to_signed 64 (Z.of_nat (length
            (filter (fun r => forallb (fun e : expr => match e r with None => false | _ => true end) es) rows))))))
  | FSum uns e =>
      v = match nonnull e rows with
          | [] => None
          | l => Some (AV (VNum ((if uns then to_unsigned 64 else to_signed 64) (zsum l))))
          end
  | FAvg e => (* sum and number of values, divided in the answer *)
      v = match nonnull e rows with
          | [] => None
          | l => Some (AAvg (zsum l) (Z.of_nat (length l)))
          end
  | FMin t e =>
      match nonnull e rows with
      | [] => v = None
      | l => exists w, v = Some (AV w) /\ In w l /\ forall u, In u l -> value_compare t w u <> Gt
      end
  | FMax t e =>
      match nonnull e rows with
      | [] => v = None
      | l => exists w, v = Some (AV w) /\ In w l /\ forall u, In u l -> value_compare t w u <> Lt
      end
  | FBits BOr e =>
      match rows with
      | [] => v = None
      | _ => exists l, v = Some (ABits l) /\ increasing l /\
             forall x, In x l <-> exists b, In b (nonnull e rows) /\ In x b
      end
  | FBits BAnd e =>
      match nonnull e rows with
      | [] => v = None
      | bs => exists l, v = Some (ABits l) /\ increasing l /\ forall x, In x l <-> forall b, In b bs -> In x b
      end
  | FBits BXor e =>
      match rows with
      | [] => v = None
      | _ => exists l, v = Some (ABits l) /\ increasing l /\
             forall x, In x l <-> Nat.odd (length (filter (fun b => existsb (Z.eqb x) b) (nonnull e rows))) = true
      end
  | FBuild e =>
      match rows with
      | [] => v = None
      | _ => exists l, v = Some (ABits l) /\ increasing l /\
             forall x, In x l <-> exists z, In z (nonnull e rows) /\ x = z mod 2 ^ 32
      end
  | FConcat sep es => exists l, Permutation (nonnull (row_text es) rows) l /\ v = joined sep l
  | FConcatBy sep es keys =>
      exists l, Permutation (filter (fun r => match row_text es r with None => false | _ => true end) rows) l /\
        StronglySorted (fun r r' => order_compare keys r r' <> Gt) l /\ v = joined sep (nonnull (row_text es) l)
  | FMulti sum t e =>
      exists s, NoDup s /\ (forall x, In x s <-> In x (nonnull e rows)) /\
        v = if sum
            then match s with
                 | [] => None
                 | _ => Some (AV (VNum (to_signed 64 (zsum (map (fun x => match x with VNum z => z | VStr _ => 0 end) s)))))
                 end
            else Some (AV (VNum (Z.of_nat (length s))))
  end.

(* DISTINCT: one row for every combination of argument values *)
Definition one_per (args : groups) (rows reps : list row) : Prop :=
  incl reps rows /\
  (forall r, In r rows -> exists r', In r' reps /\ same_group args r r' = true) /\
  ForallOrdPairs (fun r r' => same_group args r r' = false) reps.

(* ---- what is asked of the data ---- *)

(* values of GROUP BY expressions fit their types; a NULL only in the first eight *)
Definition groupable (gs : groups) (r : row) : Prop :=
  (forall t e v, In (t, e) gs -> e r = Some v -> value_ok t v) /\
  (forall t e, In (t, e) (skipn 8 gs) -> e r <> None).

Definition item_size (v : value) : Z := match v with VNum _ => 8 | VStr s => 4 + Z.of_nat (length s) end.
(* the values are in the model's range: sums of AVG are exact doubles, bitmaps are in
   canonical form, the set of a MULTI_*_DISTINCT fits the four-byte length of its message *)
Definition fits (f : fn) (rows : list row) : Prop :=
  match f with
  | FAvg e => zsum (map Z.abs (nonnull e rows)) <= 2 ^ 53
  | FBits _ e => Forall increasing (nonnull e rows)
  | FMulti _ t e =>
      (forall v, In v (nonnull e rows) ->
         match v with
         | VNum z => int_val_ok t z
         | VStr _ => t = STRING
         end) /\
      (forall s, NoDup s -> incl s (nonnull e rows) -> zsum (map item_size s) < 2 ^ 31 - 1)
  | FConcatBy _ es _ => Forall (fun s => s <> []) (nonnull (row_text es) rows)
  | _ => True
  end.

(* RB_AND_AGG and MULTI_*_DISTINCT: a part of a group computed elsewhere has a value (see
   C61_rb_and_null_part_refuted and C61_multi_distinct_null_part_refuted) *)
Definition part_ok (f : fn) (rows : list row) : Prop :=
  match f with
  | FBits BAnd e => nonnull e rows <> []
  | FMulti _ _ e => nonnull e rows <> []
  | _ => True
  end.

(* an answer of SELECT ... GROUP BY over the rows [all]: without GROUP BY one row, for all of
   them; otherwise one row for every group and no other.  [ok]: what the calls of a row must be *)
Definition answer (gs : groups) (all : list row) (ok : list row -> mrow -> Prop) (out : list mrow) : Prop :=
  match gs with
  | [] => exists m, out = [m] /\ ok all m
  | _ =>
      ForallOrdPairs (fun m m' => same_group gs (m_src m) (m_src m') = false) out /\
      (forall r, In r all -> exists m, In m out /\ same_group gs r (m_src m) = true) /\
      (forall m, In m out -> In (m_src m) all /\ ok (group_of gs (m_src m) all) m)
  end.
