(** What the SQL string functions mean, in terms of the bytes of their
    arguments, without any of the code.  A string is a list of byte values. *)
From Coq Require Import Bool ZArith NArith List Lia.
Import ListNotations.
Open Scope Z_scope.

Definition bytes := list N.

Definition len (s : bytes) : Z := Z.of_nat (length s).

(** [sub] stands in [s] at offset [i] (counted from 0). *)
Definition at_ (sub s : bytes) (i : nat) : Prop :=
  exists a b, s = a ++ sub ++ b /\ length a = i.

(** ... and nowhere before. *)
Definition first_at (sub s : bytes) (i : nat) : Prop :=
  at_ sub s i /\ forall j, (j < i)%nat -> ~ at_ sub s j.

(** [s] cut at the occurrences of [sep], taken from the left without overlap. *)
Inductive Pieces (sep : bytes) : bytes -> list bytes -> Prop :=
| P_last s : (forall j, ~ at_ sep s j) -> Pieces sep s [s]
| P_cut a b l : first_at sep (a ++ sep ++ b) (length a) -> Pieces sep b l ->
                Pieces sep (a ++ sep ++ b) (a :: l).

Fixpoint join (sep : bytes) (l : list bytes) : bytes :=
  match l with
  | [] => []
  | [s] => s
  | s :: r => s ++ sep ++ join sep r
  end.

(** SUBSTRING(s, p) and SUBSTRING(s, p, n): the byte at place [i] of the result
    is the byte at place [p + i] of [s], both counted from 1; a negative [p]
    counts from the end, and a [p] outside the string gives the empty string. *)
Definition start_of (s : bytes) (p : Z) : option Z :=
  if (1 <=? p) && (p <=? len s) then Some (p - 1)
  else if (p <? 0) && (- p <=? len s) then Some (len s + p)
  else None.

Definition is_substring (s : bytes) (p : Z) (n : option Z) (r : bytes) : Prop :=
  match start_of s p with
  | None => r = []
  | Some st =>
      forall i, nth_error r i =
        if match n with None => true | Some n => Z.of_nat i <? n end
        then nth_error s (Z.to_nat st + i) else None
  end.

(** The first, and the last, [n] bytes. *)
Definition is_left (s : bytes) (n : Z) (r : bytes) : Prop :=
  exists rest, s = r ++ rest /\ len r = Z.min (Z.max n 0) (len s).
Definition is_right (s : bytes) (n : Z) (r : bytes) : Prop :=
  exists rest, s = rest ++ r /\ len r = Z.min (Z.max n 0) (len s).

Definition sp : N := 32%N.
Definition blanks (s : bytes) : Prop := Forall (fun b => b = sp) s.
Definition no_lead (s : bytes) : Prop := forall t, s <> sp :: t.
Definition no_trail (s : bytes) : Prop := forall t, s <> t ++ [sp].

(** [q] is the first [length q] bytes of [pad] repeated for ever. *)
Definition cyclic (pad q : bytes) : Prop :=
  forall i, (i < length q)%nat -> nth_error q i = nth_error pad (i mod length pad)%nat.

Definition is_lpad (s : bytes) (n : Z) (pad r : bytes) : Prop :=
  if n <=? len s then is_left s n r
  else exists q, r = q ++ s /\ cyclic pad q /\ len r = n.
Definition is_rpad (s : bytes) (n : Z) (pad r : bytes) : Prop :=
  if n <=? len s then is_left s n r
  else exists q, r = s ++ q /\ cyclic pad q /\ len r = n.

(** INSERT(s, p, n, new): the [n] bytes of [s] from place [p] give way to
    [new]; if [n] is not within the rest of the string, all of the rest does. *)
Definition is_insert (s : bytes) (p n : Z) (new r : bytes) : Prop :=
  if (1 <=? p) && (p <=? len s) then
    exists a m b, s = a ++ m ++ b /\ r = a ++ new ++ b /\ len a = p - 1 /\
      len m = if (0 <=? n) && (n <=? len s - (p - 1)) then n else len s - (p - 1)
  else r = s.

(** REPLACE: cut at the pattern, joined again with the replacement. *)
Definition is_replace (s from to r : bytes) : Prop :=
  exists l, Pieces from s l /\ r = join to l.

(** LOCATE(sub, s, p): the first place at or after [p], or 0. *)
Definition is_locate (sub s : bytes) (p : Z) (r : Z) : Prop :=
  if r =? 0 then p < 1 \/ forall i, p - 1 <= Z.of_nat i -> ~ at_ sub s i
  else 1 <= p /\ p <= r /\ at_ sub s (Z.to_nat (r - 1)) /\
       forall i, p - 1 <= Z.of_nat i < r - 1 -> ~ at_ sub s i.

(** SUBSTRING_INDEX: the first, or the last, [|n|] pieces of the string. *)
Definition is_substring_index (s sep : bytes) (n : Z) (r : bytes) : Prop :=
  exists l, Pieces sep s l /\
    r = join sep (if 0 <? n then firstn (Z.to_nat n) l
                  else skipn (length l - Z.to_nat (- n)) l).

(** SPLIT_PART: the [n]-th piece, empty if there are not so many. *)
Definition is_split_part (s sep : bytes) (n : Z) (r : bytes) : Prop :=
  exists l, Pieces sep s l /\ r = nth (Z.to_nat (n - 1)) l [].
