(** What a user may expect of the approximate distinct counting functions
    (HLL_INIT, HLL_ADD, HLL_MERGE, HLL_ADD_AGG, HLL_MERGE_AGG, HLL_ESTIMATE).

    A sketch is 16384 small numbers.  Every value counted is hashed to 64 bits:
    the low 14 bits choose one of the numbers, the other 50 give a rank between
    1 and 51, and the number chosen becomes the maximum of itself and the rank.
    A sketch is kept as a string in one of three encodings; this file says what
    numbers each string stands for, with arithmetic only. *)
From Coq Require Import NArith List Bool Lia.
Import ListNotations.
Open Scope N_scope.

(** A sketch string: the byte that names the encoding, the cached estimate (the
    eight bytes [card], little endian) and the bytes after the header. *)
Record hll := { enc : N; card : N; body : list N }.

Definition DENSE : N := 0.
Definition SPARSE : N := 1.
Definition RAW : N := 255.

(** The numbers of the dense encoding: six bits each, packed from the low end. *)
Fixpoint little_endian (l : list N) : N :=
  match l with [] => 0 | b :: t => b + 256 * little_endian t end.

Definition dense_at (l : list N) (i : N) : N := (little_endian l / 64 ^ i) mod 64.

(** The numbers of the sparse encoding: runs.  A byte below 64 is a run of
    zeroes; a byte below 128 with the byte after it a long run of zeroes; another
    byte is a run of one to four equal numbers between 1 and 32. *)
Fixpoint sparse_at (l : list N) (i : N) : N :=
  match l with
  | [] => 0
  | b :: t =>
      if b <? 64 then
        if i <? b + 1 then 0 else sparse_at t (i - (b + 1))
      else if b <? 128 then
        match t with
        | [] => 0
        | c :: t' =>
            if i <? (b - 64) * 256 + c + 1 then 0
            else sparse_at t' (i - ((b - 64) * 256 + c + 1))
        end
      else
        if i <? (b - 128) mod 4 + 1 then (b - 128) / 4 + 1
        else sparse_at t (i - ((b - 128) mod 4 + 1))
  end.

(** How many numbers a sparse string stands for; [None] when it ends inside a run. *)
Fixpoint sparse_total (l : list N) : option N :=
  match l with
  | [] => Some 0
  | b :: t =>
      if b <? 64 then option_map (fun n => b + 1 + n) (sparse_total t)
      else if b <? 128 then
        match t with
        | [] => None
        | c :: t' => option_map (fun n => (b - 64) * 256 + c + 1 + n) (sparse_total t')
        end
      else option_map (fun n => (b - 128) mod 4 + 1 + n) (sparse_total t)
  end.

(** The number at a place of a sketch. *)
Definition reg (h : hll) (i : N) : N :=
  if enc h =? DENSE then dense_at (body h) i
  else if enc h =? RAW then nth (N.to_nat i) (body h) 0
  else sparse_at (body h) i.

Definition bytes (l : list N) : Prop := Forall (fun b => b < 256) l.

(** The strings that are sketches. *)
Definition valid (h : hll) : Prop :=
  bytes (body h) /\ card h < 2 ^ 64 /\
  ((enc h = DENSE /\ length (body h) = N.to_nat 12288)
   \/ (enc h = RAW /\ length (body h) = N.to_nat 16384 /\ Forall (fun b => b < 64) (body h))
   \/ (enc h = SPARSE /\ sparse_total (body h) = Some 16384)).

(** The place and the rank of a hash. *)
Definition place (hash : N) : N := hash mod 2 ^ 14.

Definition rank_is (hash r : N) : Prop :=
  1 <= r <= 51 /\
  (forall j, j < r - 1 -> N.testbit hash (14 + j) = false) /\
  (r = 51 \/ N.testbit hash (14 + (r - 1)) = true).

(** The number a sketch of a set of hashes has at a place: the largest rank of
    the hashes that fall there, zero when there is none. *)
Definition best (hs : list N) (i n : N) : Prop :=
  (n = 0 \/ exists h, In h hs /\ place h = i /\ rank_is h n) /\
  (forall h r, In h hs -> place h = i -> rank_is h r -> r <= n).

(** How often each of 0 .. 63 occurs among the numbers of a sketch. *)
Fixpoint count_upto (f : N -> N) (v : N) (n : nat) : N :=
  match n with
  | O => 0
  | S k => count_upto f v k + (if f (N.of_nat k) =? v then 1 else 0)
  end.

Definition histogram (h : hll) : list N :=
  map (fun v => count_upto (reg h) (N.of_nat v) (N.to_nat 16384)) (seq 0 64).
