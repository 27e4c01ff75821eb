(* SQL values and their conversions and comparisons
   (include/common/expr_value.h, include/common/type_utils.h).

   Modelled types: NULL, BOOL, the eight integer types, TIME, DATE, TIMESTAMP,
   DATETIME, DOUBLE (finite values, kept exactly as m / 2^k) and STRING.
   Not modelled: FLOAT, HEX, JSON, HLL, BITMAP, TDIGEST, MAXVALUE, NaN and
   infinities, and the conversions between the date types and from text to
   DOUBLE or to a date type: those yield [None] here.  [None] also stands for
   undefined behaviour (a double outside the range of the integer type it is
   converted to). *)
From Coq Require Import Decimal DecimalZ.
From Verif Require Import Common.Bytes.
Local Open Scope Z_scope.

(* pb::PrimitiveType, the modelled part (proto/common.proto) *)
Inductive ptype :=
| PNull | PBool
| PI8 | PI16 | PI32 | PI64 | PU8 | PU16 | PU32 | PU64
| PTime | PDate | PTimestamp | PDatetime
| PDouble | PString.

Definition ptype_eq_dec (a b : ptype) : {a = b} + {a <> b}.
Proof. decide equality. Defined.
Definition ptype_eqb (a b : ptype) : bool := if ptype_eq_dec a b then true else false.

(* include/common/expr_value.h:36-58: the type tag, the union (as the number it
   denotes under the tag; for DOUBLE the number is vz / 2^vk) and the string.
   The default constructor (54-56) zeroes the union. *)
Record value := V { vt : ptype; vz : Z; vk : nat; vs : list Z }.

Definition vnull : value := V PNull 0 0 [].                    (* Null(), 1073-1076 *)
Definition vbool (b : bool) : value := V PBool (Z.b2z b) 0 []. (* True() / False(), 1077-1086 *)
Definition vnum (t : ptype) (z : Z) : value := V t z 0 [].
Definition vdbl (m : Z) (k : nat) : value := V PDouble m k [].
Definition vstr (s : list Z) : value := V PString 0 0 s.

(* include/common/expr_value.h:1003-1005 *)
Definition is_null (v : value) : bool := match vt v with PNull => true | _ => false end.

(* include/common/type_utils.h:195-221, 114-122 *)
Definition is_int (t : ptype) : bool :=
  match t with PI8 | PI16 | PI32 | PI64 | PU8 | PU16 | PU32 | PU64 => true | _ => false end.
Definition is_uint (t : ptype) : bool :=
  match t with PU8 | PU16 | PU32 | PU64 => true | _ => false end.
Definition is_double (t : ptype) : bool := match t with PDouble => true | _ => false end.
(* include/common/expr_value.h:1059-1061 *)
Definition is_numberic (t : ptype) : bool :=
  is_int t || (match t with PBool => true | _ => false end) || is_double t.

(* the numbers a C++ integer type holds: signed / unsigned, width *)
Definition range_of (t : ptype) : option (Z * Z) :=
  match t with
  | PBool => Some (0, 2)
  | PI8 => Some (- 2^7, 2^7) | PI16 => Some (- 2^15, 2^15)
  | PI32 | PTime => Some (- 2^31, 2^31) | PI64 => Some (- 2^63, 2^63)
  | PU8 => Some (0, 2^8) | PU16 => Some (0, 2^16)
  | PU32 | PDate | PTimestamp => Some (0, 2^32)
  | PU64 | PDatetime => Some (0, 2^64)
  | PNull | PDouble | PString => None
  end.

(* a value whose union content belongs to its type *)
Definition wf (v : value) : Prop :=
  match vt v with
  | PNull => vz v = 0 /\ vk v = O /\ vs v = []
  | PDouble => vs v = []
  | PString => vz v = 0 /\ vk v = O /\ bytes_ok (vs v)
  | t => match range_of t with
         | Some (lo, hi) => lo <= vz v < hi /\ vk v = O /\ vs v = []
         | None => False
         end
  end.

(* C++ integer conversion to the type (modular) *)
Definition wrap (t : ptype) (z : Z) : Z :=
  match range_of t with
  | Some (lo, hi) => (z - lo) mod (hi - lo) + lo
  | None => z
  end.

(* strtoull(s, NULL, 10), used by get_numberic on strings
   (include/common/expr_value.h:373-375): blanks, an optional sign, digits;
   saturates at 2^64 - 1; a minus sign negates modulo 2^64.  c_str() ends the
   text at the first zero byte, which is no digit, so nothing is added here. *)
Definition is_blank (c : Z) : bool := (c =? 32) || ((9 <=? c) && (c <=? 13)).
Definition is_digit (c : Z) : bool := (48 <=? c) && (c <=? 57).
Fixpoint skip_blanks (s : list Z) : list Z :=
  match s with c :: r => if is_blank c then skip_blanks r else s | [] => [] end.
Fixpoint read_digits (acc : Z) (s : list Z) : Z :=
  match s with
  | c :: r => if is_digit c then read_digits (acc * 10 + (c - 48)) r else acc
  | [] => acc
  end.
Definition strtoull (s : list Z) : Z :=
  match skip_blanks s with
  | 45 :: r => let n := Z.min (read_digits 0 r) (2^64 - 1) in
               if 2^64 - 1 <=? read_digits 0 r then 2^64 - 1 else (- n) mod 2^64
  | 43 :: r => Z.min (read_digits 0 r) (2^64 - 1)
  | r => Z.min (read_digits 0 r) (2^64 - 1)
  end.

(* nearest double of an integer, ties to even *)
Definition round53 (z : Z) : Z :=
  let a := Z.abs z in
  if a <=? 2^53 then z else
  let e := Z.log2 a - 52 in
  let q := a / 2^e in
  let r := a mod 2^e in
  let h := 2^(e - 1) in
  let q' := if (h <? r) || ((r =? h) && Z.odd q) then q + 1 else q in
  Z.sgn z * (q' * 2^e).

(* get_numberic<T> for an integer type T (include/common/expr_value.h:340-410) *)
Definition get_int (t : ptype) (v : value) : option Z :=
  match vt v with
  | PNull => Some 0
  | PString => Some (wrap t (strtoull (vs v)))
  | PDouble =>
      let z := Z.quot (vz v) (2 ^ Z.of_nat (vk v)) in
      match range_of t with
      | Some (lo, hi) => if (lo <=? z) && (z <? hi) then Some z else None
      | None => None
      end
  | _ => Some (wrap t (vz v))
  end.

(* get_numberic<bool> (same lines; conversion to bool is "is not zero") *)
Definition get_bool (v : value) : bool :=
  match vt v with
  | PNull => false
  | PString => negb (strtoull (vs v) =? 0)
  | _ => negb (vz v =? 0)
  end.

(* std::to_string / datetime-free part of get_string
   (include/common/expr_value.h:704-765): decimal text of the integers; the text
   of DOUBLE and of the date types is not modelled *)
Fixpoint uint_text (u : Decimal.uint) : list Z :=
  match u with
  | Decimal.Nil => []
  | Decimal.D0 r => 48 :: uint_text r | Decimal.D1 r => 49 :: uint_text r
  | Decimal.D2 r => 50 :: uint_text r | Decimal.D3 r => 51 :: uint_text r
  | Decimal.D4 r => 52 :: uint_text r | Decimal.D5 r => 53 :: uint_text r
  | Decimal.D6 r => 54 :: uint_text r | Decimal.D7 r => 55 :: uint_text r
  | Decimal.D8 r => 56 :: uint_text r | Decimal.D9 r => 57 :: uint_text r
  end.
Definition to_string (z : Z) : list Z :=
  match Z.to_int z with
  | Decimal.Pos u => uint_text u
  | Decimal.Neg u => 45 :: uint_text u
  end.
Definition get_string (v : value) : option (list Z) :=
  match vt v with
  | PNull => Some []
  | PString => Some (vs v)
  | PDouble | PTime | PDate | PTimestamp | PDatetime => None
  | _ => Some (to_string (vz v))
  end.

(* cast_to (include/common/expr_value.h:502-611) *)
Definition cast_to (t : ptype) (v : value) : option value :=
  if is_null v || ptype_eqb (vt v) t then Some v else
  match t with
  | PNull => Some (V PNull (vz v) (vk v) (vs v))
  | PBool => Some (vbool (get_bool v))
  | PDouble =>
      match vt v with
      | PString => None                      (* from_chars: not modelled *)
      | _ => Some (vdbl (round53 (vz v)) 0)
      end
  | PString => option_map vstr (get_string v)
  | PDatetime =>
      match vt v with
      | PString | PTimestamp | PDate | PTime => None   (* date conversions: Date/ *)
      | _ => option_map (vnum PDatetime) (get_int PU64 v)
      end
  | PTimestamp | PDate =>
      if is_numberic (vt v) then option_map (vnum t) (get_int PU32 v) else None
  | PTime =>
      if is_numberic (vt v) then option_map (vnum PTime) (get_int PI32 v) else None
  | _ => option_map (vnum t) (get_int t v)
  end.

(* three-way results of std::string::compare and of the > / < tests *)
Definition of_cmp (c : comparison) : Z := match c with Lt => -1 | Eq => 0 | Gt => 1 end.

(* order of two doubles m / 2^k *)
Definition dbl_compare (x y : value) : comparison :=
  vz x * 2 ^ Z.of_nat (vk y) ?= vz y * 2 ^ Z.of_nat (vk x).

(* the number in the other operand's union read with the width and sign of [t]:
   compare() reads other._u under its own type (expr_value.h:903-933).  Exact
   when the other operand has the same representation; for a NULL operand the
   union is zero. *)
Definition other_num (t : ptype) (o : value) : Z := wrap t (vz o).

(* compare (include/common/expr_value.h:892-943); std::string::compare is modelled by
   its sign *)
Definition compare (x o : value) : Z :=
  match vt x with
  | PBool => vz x - other_num PBool o
  | PI8 => vz x - other_num PI8 o
  | PI16 => vz x - other_num PI16 o
  | PI32 | PTime => vz x - other_num PI32 o
  | PI64 => of_cmp (vz x ?= other_num PI64 o)
  | PU8 => vz x - other_num PU8 o
  | PU16 => vz x - other_num PU16 o
  | PU32 | PTimestamp | PDate => vz x - other_num PU32 o
  | PU64 | PDatetime => of_cmp (vz x ?= other_num PU64 o)
  | PDouble => of_cmp (dbl_compare x o)
  | PString => of_cmp (bcompare (vs x) (vs o))
  | PNull => if is_null o then 0 else -1
  end.

(* the type both operands are converted to by compare_diff_type
   (include/common/expr_value.h:954-987) *)
Definition diff_type (a b : ptype) : ptype :=
  let either t := ptype_eqb a t || ptype_eqb b t in
  if is_int a && is_int b then
    if is_uint a || is_uint b then PU64 else PI64
  else if either PDatetime then PDatetime
  else if either PTimestamp then PTimestamp
  else if either PDate then PDate
  else if either PTime then PTime
  else if is_double a || is_double b then PDouble
  else if is_int a || is_int b then PDouble
  else PString.

(* compare_diff_type (include/common/expr_value.h:954-989); it changes both operands,
   which calling it again does not do a second time *)
Definition compare_diff_type (x y : value) : option Z :=
  if ptype_eqb (vt x) (vt y) then Some (compare x y) else
  let t := diff_type (vt x) (vt y) in
  match cast_to t x, cast_to t y with
  | Some x', Some y' => Some (compare x' y')
  | _, _ => None
  end.
