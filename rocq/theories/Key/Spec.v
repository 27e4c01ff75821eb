(* What the index-key properties mean, stated without the codec's helpers. *)
From Verif.Common Require Import Bytes.
From Verif.Key Require Import Model.
Local Open Scope Z_scope.

(* Integer columns and the numbers they can hold (SQL types; DATE, TIMESTAMP,
   DATETIME and TIME are stored as the integers of include/common/datetime.h). *)
Definition int_range (t : coltype) : option (Z * Z) :=
  match t with
  | INT8 => Some (-128, 127)
  | INT16 => Some (-32768, 32767)
  | INT32 | TIME => Some (-2147483648, 2147483647)
  | INT64 => Some (-9223372036854775808, 9223372036854775807)
  | BOOL => Some (0, 1)
  | UINT8 => Some (0, 255)
  | UINT16 => Some (0, 65535)
  | UINT32 | TIMESTAMP | DATE => Some (0, 4294967295)
  | UINT64 | DATETIME => Some (0, 18446744073709551615)
  | FLOAT | DOUBLE | STRING | OTHER_TYPE => None
  end.
Definition int_val_ok (t : coltype) (z : Z) : Prop :=
  match int_range t with Some (lo, hi) => lo <= z <= hi | None => False end.

(* IEEE-754 reading of a bit pattern with eb exponent bits and fb fraction bits.
   [float_num] is the exact real value divided by the smallest positive
   subnormal, so it is an integer and comparing it compares the reals; an
   infinity reads as the next binade, above every finite value. *)
Definition float_num (eb fb x : Z) : Z :=
  let m := x mod 2 ^ (eb + fb) in
  let e := m / 2 ^ fb in
  let f := m mod 2 ^ fb in
  let mag := if e =? 0 then f else (2 ^ fb + f) * 2 ^ (e - 1) in
  if x <? 2 ^ (eb + fb) then mag else - mag.
Definition float_pattern (eb fb x : Z) : Prop := 0 <= x < 2 ^ (1 + eb + fb).
(* all exponent bits set and a non-zero fraction *)
Definition float_nan (eb fb x : Z) : Prop := (2 ^ eb - 1) * 2 ^ fb < x mod 2 ^ (eb + fb).

Definition no_nul (s : list Z) : Prop := Forall (fun b => 0 < b < 256) s.

(* A value a column of type t can hold and for which the key format is meant to
   work: numbers in range, floats other than NaN, strings without NUL bytes. *)
Definition value_ok (t : coltype) (v : value) : Prop :=
  match t, v with
  | FLOAT, VNum x => float_pattern 8 23 x /\ ~ float_nan 8 23 x
  | DOUBLE, VNum x => float_pattern 11 52 x /\ ~ float_nan 11 52 x
  | STRING, VStr s => no_nul s
  | OTHER_TYPE, _ => False
  | STRING, VNum _ => False
  | _, VNum z => int_val_ok t z
  | _, VStr _ => False
  end.

(* SQL order of two values of a column of type t *)
Definition value_compare (t : coltype) (v w : value) : comparison :=
  match t, v, w with
  | FLOAT, VNum x, VNum y => float_num 8 23 x ?= float_num 8 23 y
  | DOUBLE, VNum x, VNum y => float_num 11 52 x ?= float_num 11 52 y
  | _, VNum x, VNum y => x ?= y
  | _, VStr s, VStr u => bcompare s u
  | _, VNum _, VStr _ => Lt
  | _, VStr _, VNum _ => Gt
  end.

(* column by column *)
Fixpoint tuple_compare (ts : list coltype) (a b : list value) : comparison :=
  match ts, a, b with
  | t :: ts', v :: a', w :: b' =>
      match value_compare t v w with Eq => tuple_compare ts' a' b' | c => c end
  | _, _, _ => Eq
  end.

(* the values of a row on a list of columns, when none of them is NULL *)
Definition row_has (r : record) (fs : list field_info) (vs : list value) : Prop :=
  Forall2 (fun f v => r (f_pb_idx f) = Some v /\ value_ok (f_type f) v) fs vs.

(* The stored value differs from the given one only in the sign of a zero float:
   equal as SQL values. *)
Definition same_value (t : coltype) (v w : value) : Prop :=
  value_ok t v /\ value_ok t w /\ value_compare t v w = Eq.

(* Secondary index columns: which are NULL, and the values of the others.  A
   column declared NOT NULL reads as its type's zero value when absent. *)
Definition col_value (r : record) (f : field_info) : option value :=
  match r (f_pb_idx f) with
  | Some v => Some v
  | None => if f_can_null f then None else Some (default_value (f_type f))
  end.
Definition row_ok (r : record) (fs : list field_info) : Prop :=
  Forall (fun f => f_type f <> OTHER_TYPE /\
                   forall v, r (f_pb_idx f) = Some v -> value_ok (f_type f) v) fs.

(* Documented order of a nullable secondary index: the NULL pattern first (a
   non-NULL column before a NULL one, columns left to right), then, for rows with
   the same pattern, the non-NULL columns left to right. *)
Fixpoint null_pattern_compare (a b : list (option value)) : comparison :=
  match a, b with
  | Some _ :: a', None :: _ => Lt
  | None :: _, Some _ :: _ => Gt
  | _ :: a', _ :: b' => null_pattern_compare a' b'
  | _, _ => Eq
  end.
Fixpoint nonnull_compare (ts : list coltype) (a b : list (option value)) : comparison :=
  match ts, a, b with
  | t :: ts', Some v :: a', Some w :: b' =>
      match value_compare t v w with Eq => nonnull_compare ts' a' b' | c => c end
  | _ :: ts', _ :: a', _ :: b' => nonnull_compare ts' a' b'
  | _, _, _ => Eq
  end.
Definition index_compare (ts : list coltype) (a b : list (option value)) : comparison :=
  match null_pattern_compare a b with Eq => nonnull_compare ts a b | c => c end.

(* distinct columns *)
Definition distinct_cols (fs : list field_info) : Prop := NoDup (map f_pb_idx fs).

(* The row r' obtained by decoding a key of row r into an initial row r0 holds,
   on column f, the value r has there (zero value for an absent NOT NULL column),
   or what r0 had when the column is NULL in r. *)
Definition decoded_col (r r0 r' : record) (f : field_info) : Prop :=
  match col_value r f with
  | Some v => exists v', r' (f_pb_idx f) = Some v' /\ same_value (f_type f) v v'
  | None => r' (f_pb_idx f) = r0 (f_pb_idx f)
  end.

Definition is_prefix (p k : list Z) : Prop := exists x, k = p ++ x.

Definition is_float (t : coltype) : bool :=
  match t with FLOAT | DOUBLE => true | _ => false end.

(* plus infinity for region ends: None is above every key *)
Definition bound_of (k : list Z) : option (list Z) := match k with [] => None | _ => Some k end.
Definition bound_compare (a b : option (list Z)) : comparison :=
  match a, b with
  | None, None => Eq
  | None, Some _ => Gt
  | Some _, None => Lt
  | Some x, Some y => bcompare x y
  end.
