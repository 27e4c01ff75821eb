(** What HEX, UNHEX, BIN, OCT, CHAR_LENGTH, FIND_IN_SET, FIELD, ELT, MAKE_SET,
    EXPORT_SET, QUOTE and FORMAT mean, without any of the code. *)
From Coq Require Import Bool ZArith NArith List Lia.
From Verif Require Import Str.Spec.
Import ListNotations.
Open Scope N_scope.

(** The value of a digit 0-9, A-F. *)
Definition digit (c : N) : option N :=
  if (48 <=? c) && (c <=? 57) then Some (c - 48)
  else if (65 <=? c) && (c <=? 70) then Some (c - 55)
  else None.

Fixpoint number (base acc : N) (s : bytes) : option N :=
  match s with
  | [] => Some acc
  | c :: r => match digit c with
              | Some d => if d <? base then number base (acc * base + d) r else None
              | None => None
              end
  end.

(** [r] is the numeral of [n]: its digits have that value and it does not start
    with a needless 0. *)
Definition is_numeral (base n : N) (r : bytes) : Prop :=
  r <> [] /\ number base 0 r = Some n /\ (n <> 0 -> hd 0 r <> 48).

(** The two's complement of an int64. *)
Definition as_uint64 (z : Z) : N := Z.to_N (z mod 2^64).

(** HEX of a string: two digits for every byte. *)
Definition is_hex (s r : bytes) : Prop :=
  length r = (2 * length s)%nat /\
  forall i b, nth_error s i = Some b ->
    number 16 0 (firstn 2 (skipn (2 * i) r)) = Some b.

(** The UTF-8 encoding of a code point. *)
Definition utf8 (c : N) : bytes :=
  if c <? 128 then [c]
  else if c <? 2048 then [192 + c / 64; 128 + c mod 64]
  else if c <? 65536 then [224 + c / 4096; 128 + c / 64 mod 64; 128 + c mod 64]
  else [240 + c / 262144; 128 + c / 4096 mod 64; 128 + c / 64 mod 64; 128 + c mod 64].
Definition code_point (c : N) : Prop := c < 1114112.

(** The place, counted from 1, of the first [t] in [l], or 0. *)
Definition is_place (t : bytes) (l : list bytes) (r : Z) : Prop :=
  (r = 0%Z /\ ~ In t l) \/
  ((0 < r)%Z /\ nth_error l (Z.to_nat (r - 1)) = Some t /\
   forall j, (j < Z.to_nat (r - 1))%nat -> nth_error l j <> Some t).

(** The elements whose bits are set in [n]. *)
Fixpoint picked (n : Z) (i : nat) (l : list bytes) : list bytes :=
  match l with
  | [] => []
  | s :: r => if Z.testbit n (Z.of_nat i) then s :: picked n (S i) r else picked n (S i) r
  end.

(** What the SQL lexer reads between quotes: a backslash makes the next byte
    stand for itself (here only quote and backslash follow one). *)
Fixpoint lexed (s : bytes) : option bytes :=
  match s with
  | [] => None
  | 39 :: [] => Some []
  | 39 :: _ => None
  | 92 :: c :: r => option_map (cons c) (lexed r)
  | c :: r => option_map (cons c) (lexed r)
  end.
Definition literal_of (s : bytes) : option bytes :=
  match s with 39 :: r => lexed r | _ => None end.

(** [r] is the text [d] in groups of three, counted from its end. *)
Definition is_grouped (d r : bytes) : Prop :=
  exists g gs, d = g ++ List.concat gs /\ r = join [44] (g :: gs) /\
    (1 <= length g <= 3)%nat /\ Forall (fun x => length x = 3%nat) gs.
