(* What a rewritten WHERE condition must keep: the rows for which every conjunct is TRUE.
   Also the well-formedness of conditions as type inference leaves them. *)
From Verif Require Import Common.Bytes Expr.Value Expr.Model Expr.Spec Cut.Model.
Local Open Scope Z_scope.

(* a conjunct is TRUE in a row: neither FALSE nor NULL *)
Definition TRUE (r : row) (p : pred) : Prop :=
  exists v, peval r p = Some v /\ is_null v = false /\ get_bool v = true.

(* the type a column is compared in *)
Definition arg (t : ptype) : ptype := diff_type t t.
(* column types: all but the type of NULL and BOOL *)
Definition usable (t : ptype) : Prop := t <> PNull /\ t <> PBool.

(* a constant compared with a column of type t: NULL, of the column's type or of the type
   it is compared in *)
Definition fit (t : ptype) (v : value) : Prop :=
  wf v /\ (is_null v = true \/ vt v = t \/ vt v = arg t).
Definition elem_ok (t : ptype) (e : elem) : Prop :=
  (fst e = t \/ fst e = arg t) /\ fit t (snd e).

(* [C] gives the column types of the table *)
Definition leaf_ok (C : nat -> ptype) (t : ptype) (x : leaf) : Prop :=
  match x with LSlot i u => u = t /\ C i = t | LVal w => fit t w end.

Fixpoint slots (xs : list leaf) : list nat :=
  match xs with
  | [] => []
  | LSlot i _ :: q => i :: slots q
  | LVal _ :: q => slots q
  end.


(* a well-formed condition.  [Z] restricts the strings that occur; a row IN needs strings
   without a zero byte.  Bounds and row comparisons have no NULL constant, row and IN lists for a
   text column neither, a row names a column once and row IN lists have no DOUBLE column *)
Definition no_zero (v : value) : Prop := ~ List.In 0 (vs v).
Definition fz (Z : value -> Prop) (t : ptype) (v : value) : Prop := fit t v /\ Z v.
Definition leaf_fz (Z : value -> Prop) (C : nat -> ptype) (t : ptype) (x : leaf) : Prop :=
  match x with LSlot i u => u = t /\ C i = t | LVal w => fz Z t w end.
Definition elem_fz (Z : value -> Prop) (t : ptype) (e : elem) : Prop :=
  elem_ok t e /\ Z (snd e) /\ (t = PString -> is_null (snd e) = false).

Definition wt (Z : value -> Prop) (C : nat -> ptype) (p : pred) : Prop :=
  match p with
  | Cmp o a x v => exists t, usable t /\ a = arg t /\ leaf_fz Z C t x /\ fz Z t v /\
        (match o with CEq | CNe => True | _ => is_null v = false end)
  | In x l _ => exists t, usable t /\ leaf_fz Z C t x /\ l <> [] /\ Forall (elem_fz Z t) l
  | RowCmp o xs vs =>
      exists ts, Forall usable ts /\ Forall2 (leaf_fz Z C) ts xs /\ NoDup (slots xs) /\
        Forall2 (fun t v => fz Z t v /\ is_null v = false) ts vs
  | RowIn xs rows _ =>
      exists ts, Forall (fun t => usable t /\ t <> PDouble) ts /\ Forall2 (leaf_fz Z C) ts xs /\
        NoDup (slots xs) /\ rows <> [] /\ Forall (fun l => Forall2 (elem_fz Z) ts l) rows /\
        (forall v, Z v -> no_zero v)
  | Other _ => True
  end.

(* the row of the table *)
Definition row_fz (Z : value -> Prop) (C : nat -> ptype) (r : row) : Prop :=
  forall i, usable (C i) -> holds (C i) (r i) /\ Z (r i).

(* an OR that is turned into an IN: the constants, converted for the comparison, are not
   NULL; within an AND every column occurs once and none is a DOUBLE *)
Definition eq_ok (Z : value -> Prop) (C : nat -> ptype) (x : nat * ptype * value) : Prop :=
  let '(i, t, w) := x in usable t /\ C i = t /\ wf w /\ is_null w = false /\ Z w.
Definition or_ok (Z : value -> Prop) (C : nat -> ptype) (p : pred) : Prop :=
  match p with
  | Other (EOr l) =>
      (forall xs, eqs_of l = Some xs -> Forall (eq_ok Z C) xs) /\
      (forall rs, ands_of l = Some rs ->
         Forall (fun xs => Forall (fun x => eq_ok Z C x /\ snd (fst x) <> PDouble) xs /\ NoDup (map eslot xs)) rs /\
         (forall v, Z v -> no_zero v))
  | _ => True
  end.

(* conditions on single columns whose constants have a text in the model; constant
   conditions of other kinds can be computed *)
Definition plain (p : pred) : Prop :=
  match p with
  | Cmp _ _ _ _ => True
  | In _ l _ => Forall (fun e : elem => exists s, get_string (snd e) = Some s) l
  | RowCmp _ _ _ | RowIn _ _ _ => False
  | Other e => const_expr e = true -> exists v, eval (fun _ => vnull) e = Some v
  end.

(* comparison of rows in SQL: equality of all places; otherwise by the first place that
   differs *)
Fixpoint row3 (o : cmpop) (l : list (sqlval * sqlval)) : tv :=
  match l with
  | [] => Some (match o with CEq | CLe | CGe => true | _ => false end)
  | (x, y) :: q =>
      match o with
      | CEq => and3 (cmp3 CEq x y) (row3 o q)
      | CNe => or3 (cmp3 CNe x y) (row3 o q)
      | CLt | CLe => or3 (cmp3 CLt x y) (and3 (cmp3 CEq x y) (row3 o q))
      | CGt | CGe => or3 (cmp3 CGt x y) (and3 (cmp3 CEq x y) (row3 o q))
      end
  end.
(* a row in a list of rows *)
Definition row_in3 (x : list sqlval) (rows : list (list sqlval)) : tv :=
  fold_right or3 (Some false) (map (fun g => row3 CEq (combine x g)) rows).
