(* What SQL says about the expressions of Expr/Model.v: values are NULL, exact
   numbers or byte strings; a condition is TRUE, FALSE or UNKNOWN. *)
From Verif Require Import Common.Bytes Expr.Value Expr.Model.
Local Open Scope Z_scope.

(* an SQL value; the number m / 2^k *)
Inductive sqlval := SNull | SNum (m : Z) (k : nat) | SStr (s : list Z).

Definition denote (v : value) : sqlval :=
  match vt v with
  | PNull => SNull
  | PString => SStr (vs v)
  | _ => SNum (vz v) (vk v)
  end.

(* three-valued truth: None is UNKNOWN *)
Definition tv := option bool.
Definition not3 (a : tv) : tv := option_map negb a.
Definition and3 (a b : tv) : tv :=
  match a, b with
  | Some false, _ | _, Some false => Some false
  | Some true, Some true => Some true
  | _, _ => None
  end.
Definition or3 (a b : tv) : tv :=
  match a, b with
  | Some true, _ | _, Some true => Some true
  | Some false, Some false => Some false
  | _, _ => None
  end.
Definition xor3 (a b : tv) : tv :=
  match a, b with Some x, Some y => Some (xorb x y) | _, _ => None end.

(* a number is a condition: true unless zero *)
Definition truth (x : sqlval) : tv :=
  match x with SNum m _ => Some (negb (m =? 0)) | _ => None end.
Definition of_tv (a : tv) : sqlval :=
  match a with Some b => SNum (Z.b2z b) 0 | None => SNull end.

(* order of two SQL values of a kind; None when one is NULL or the kinds differ *)
Definition order (x y : sqlval) : option comparison :=
  match x, y with
  | SNum m k, SNum n j => Some (m * 2 ^ Z.of_nat j ?= n * 2 ^ Z.of_nat k)
  | SStr s, SStr t => Some (bcompare s t)
  | _, _ => None
  end.
Definition rel (o : cmpop) (c : comparison) : bool :=
  match o with
  | CEq => match c with Eq => true | _ => false end
  | CNe => match c with Eq => false | _ => true end
  | CLt => match c with Lt => true | _ => false end
  | CLe => match c with Gt => false | _ => true end
  | CGt => match c with Gt => true | _ => false end
  | CGe => match c with Lt => false | _ => true end
  end.
Definition cmp3 (o : cmpop) (x y : sqlval) : tv := option_map (rel o) (order x y).

(* the SQL value of an expression *)
Fixpoint sql (r : row) (e : expr) : sqlval :=
  match e with
  | ESlot i _ => denote (r i)
  | ELit v => denote v
  | EAnd l => of_tv (fold_right and3 (Some true) (map (fun c => truth (sql r c)) l))
  | EOr l => of_tv (fold_right or3 (Some false) (map (fun c => truth (sql r c)) l))
  | EXor a b => of_tv (xor3 (truth (sql r a)) (truth (sql r b)))
  | ENot a => of_tv (not3 (truth (sql r a)))
  | EIsNull a => of_tv (Some (match sql r a with SNull => true | _ => false end))
  | EIsTrue a => of_tv (Some (match truth (sql r a) with Some true => true | _ => false end))
  | ECmp o a b => of_tv (cmp3 o (sql r a) (sql r b))
  | EIn x l =>
      of_tv (fold_right or3 (Some false) (map (fun c => cmp3 CEq (sql r x) (sql r c)) l))
  end.

(* ---- the expressions the correctness theorem speaks about ---- *)

(* integers or booleans *)
Definition numeric (t : ptype) : Prop := is_int t = true \/ t = PBool.

(* the value is NULL or can be compared exactly as type t: as 64-bit integers, as
   strings, as two values of one date type, or as doubles (integers up to 2^53) *)
Definition fits (t : ptype) (v : value) : Prop :=
  is_null v = true \/
  match t with
  | PI64 => numeric (vt v) /\ - 2^63 <= vz v < 2^63
  | PU64 => numeric (vt v) /\ 0 <= vz v < 2^64
  | PString => vt v = PString
  | PTime | PDate | PTimestamp | PDatetime => vt v = t
  | PDouble => vt v = PDouble \/ (numeric (vt v) /\ Z.abs (vz v) <= 2^53)
  | _ => False
  end.

(* the type two operands can be compared in *)
Definition common (t u : ptype) : ptype :=
  if is_int t && is_int u then (if is_uint t || is_uint u then PU64 else PI64)
  else match t, u with
  | PString, PString => PString
  | PTime, PTime => PTime
  | PDate, PDate => PDate
  | PTimestamp, PTimestamp => PTimestamp
  | PDatetime, PDatetime => PDatetime
  | PDouble, PDouble => PDouble
  | PDouble, _ => if is_int u then PDouble else PNull
  | _, PDouble => if is_int t then PDouble else PNull
  | _, _ => PNull
  end.
(* a literal compared with a column is converted to the column's type *)
Definition cmp_class (a b : expr) : ptype :=
  match a, b with
  | ESlot _ t, ELit _ => common t t
  | _, _ => common (ty a) (ty b)
  end.

(* a list element for a column of type t: NULL, of the column's type, or an integer the
   column can hold *)
Definition elem_fits (t : ptype) (v : value) : Prop :=
  is_null v = true \/ vt v = t \/
  (is_int t = true /\ numeric (vt v) /\ in_range t (vz v) = true).

(* operands of comparisons are columns and literals *)
Definition simple (e : expr) : Prop :=
  match e with ESlot _ _ | ELit _ => True | _ => False end.

(* usable as a condition: not a string *)
Definition condition (e : expr) : Prop := ty e <> PString.

(* the row holds, for a column of type t, NULL or a value of that type *)
Definition holds (t : ptype) (v : value) : Prop :=
  wf v /\ t <> PNull /\ (vt v = PNull \/ vt v = t).

(* the value of a column or literal in a row *)
Definition leaf (r : row) (e : expr) : value :=
  match e with ESlot i _ => r i | ELit v => v | _ => vnull end.

Fixpoint ok (r : row) (e : expr) : Prop :=
  match e with
  | ESlot i t => holds t (r i)
  | ELit v => wf v
  | EAnd l | EOr l => Forall id (map (fun c => ok r c /\ condition c) l)
  | EXor a b => (ok r a /\ condition a) /\ (ok r b /\ condition b)
  | ENot a | EIsTrue a => ok r a /\ condition a
  | EIsNull a => ok r a
  | ECmp o a b =>
      ok r a /\ ok r b /\ simple a /\ simple b /\
      cmp_class a b <> PNull /\ fits (cmp_class a b) (leaf r a) /\ fits (cmp_class a b) (leaf r b)
  | EIn x l =>
      ok r x /\ l <> [] /\
      exists t i, x = ESlot i t /\ t <> PBool /\
      Forall (fun c => exists v, c = ELit v /\ wf v /\ elem_fits t v) l
  end.
