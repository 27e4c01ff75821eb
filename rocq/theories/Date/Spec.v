(* What a calendar is, independently of the code: the Gregorian rules, and the numbering of
   days obtained by counting from 1 January 1970 one day at a time in both directions. *)
From Coq Require Import ZArith List Bool Lia.
Import ListNotations.
Local Open Scope Z_scope.

Definition date : Type := Z * Z * Z.   (* year, month 1..12, day 1.. *)

Definition leap (y : Z) : bool :=
  (y mod 4 =? 0) && (negb (y mod 100 =? 0) || (y mod 400 =? 0)).

Definition month_len (y m : Z) : Z :=
  match m with
  | 2 => if leap y then 29 else 28
  | 4 | 6 | 9 | 11 => 30
  | _ => 31
  end.

Definition valid_date (x : date) : Prop :=
  let '(y, m, d) := x in 1 <= m <= 12 /\ 1 <= d <= month_len y m.

Definition next_day (x : date) : date :=
  let '(y, m, d) := x in
  if d <? month_len y m then (y, m, d + 1)
  else if m <? 12 then (y, m + 1, 1) else (y + 1, 1, 1).

(* [day_is n x]: day number n (0 = 1970-01-01) has calendar date x *)
Inductive day_is : Z -> date -> Prop :=
| day_epoch : day_is 0 (1970, 1, 1)
| day_next : forall n x, day_is n x -> day_is (n + 1) (next_day x)
| day_prev : forall n x, valid_date x -> day_is (n + 1) (next_day x) -> day_is n x.

(* n days of the year that precede the first of month m *)
Fixpoint days_before (y : Z) (m : nat) : Z :=
  match m with
  | O => 0 | S O => 0
  | S k => days_before y k + month_len y (Z.of_nat k)
  end.

(* A point in time of a valid day *)
Definition valid_tod (h mi s : Z) : Prop := 0 <= h < 24 /\ 0 <= mi < 60 /\ 0 <= s < 60.

(* Lexicographic order on field lists, most significant first *)
Fixpoint lex (a b : list Z) : comparison :=
  match a, b with
  | [], [] => Eq
  | [], _ => Lt
  | _, [] => Gt
  | x :: a', y :: b' => match Z.compare x y with Eq => lex a' b' | c => c end
  end.

(* DATETIME fields MySQL accepts: zero month and day are allowed *)
Definition valid_fields (y mo d h mi s us : Z) : Prop :=
  0 <= y <= 9999 /\ 0 <= mo <= 12 /\ 0 <= d <= 31 /\ valid_tod h mi s /\ 0 <= us < 1000000.

(* A duration in seconds as sign, hours, minutes and seconds *)
Definition duration (neg : bool) (h mi s : Z) : Z :=
  let n := h * 3600 + mi * 60 + s in if neg then - n else n.

(* Calendar month arithmetic: months are numbered 12 * year + (month - 1) *)
Definition add_months (x : date) (n : Z) : date :=
  let '(y, m, d) := x in
  let k := 12 * y + (m - 1) + n in
  let y' := k / 12 in let m' := k mod 12 + 1 in
  (y', m', Z.min d (month_len y' m')).
