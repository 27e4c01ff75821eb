(** The functions of src/expr/internal_functions.cpp:2965-3303 that build or
    read texts.  Simplified as in Model.v. *)
From Coq Require Import Bool ZArith NArith List Lia.
From Verif Require Import Str.Spec Str.Model.
Import ListNotations.
Open Scope N_scope.

(** A digit as written by ostream and toupper. *)
Definition dig (d : N) : N := if d <? 10 then 48 + d else 55 + d.

(** The loop of bin, internal_functions.cpp:3130-3133, for any base (64 turns
    are enough for a uint64). *)
Fixpoint digits_rev (fuel : nat) (base u : N) : bytes :=
  match fuel with
  | O => []
  | S f => if u =? 0 then [] else dig (u mod base) :: digits_rev f base (u / base)
  end.
Definition digits (base u : N) : bytes :=
  if u =? 0 then [48] else rev (digits_rev 64 base u).

(** static_cast of an int64 to unsigned. *)
Definition cast_u64 (z : Z) : N := Z.to_N (z mod 2^64).

(** bin and oct of an integer, internal_functions.cpp:3075-3087, 3117-3136.
    std::oct and std::hex are modelled by the same loop. *)
Definition bin (z : Z) : bytes := digits 2 (cast_u64 z).
Definition oct (z : Z) : bytes := digits 8 (cast_u64 z).

(** hex, internal_functions.cpp:3089-3115; "%02X" writes two digits. *)
Definition hex (v : val) : res :=
  match v with
  | VNull => RNull
  | VInt z => RStr (digits 16 (cast_u64 z))
  | VStr s => RStr (flat_map (fun b => [dig (b / 16); dig (b mod 16)]) s)
  end.

(** A digit in unhex, internal_functions.cpp:3168-3176. *)
Definition nibble (c : N) : option N :=
  if (48 <=? c) && (c <=? 57) then Some (c - 48)
  else if (65 <=? c) && (c <=? 70) then Some (c - 65 + 10)
  else if (97 <=? c) && (c <=? 102) then Some (c - 97 + 10)
  else None.
(** The loop of unhex, internal_functions.cpp:3164-3184. *)
Fixpoint unhex_loop (s : bytes) (num : N) (flag : bool) (out : bytes) : option bytes :=
  match s with
  | [] => Some (if num =? 0 then out else out ++ [num mod 256])
  | c :: r =>
      let flag := negb flag in
      match nibble c with
      | None => None
      | Some d =>
          let num := num * 16 + d in
          if flag then unhex_loop r 0 flag (out ++ [num mod 256])
          else unhex_loop r num flag out
      end
  end.
Definition unhex (v : val) : res :=
  match v with
  | VNull => RNull
  | _ => let s := get_string v in
         match unhex_loop s 0 (Nat.even (length s)) [] with
         | Some r => RStr r
         | None => RNull
         end
  end.

(** char_length, internal_functions.cpp:3203-3237. *)
Definition char_step (st : Z * Z) (ch : N) : Z * Z :=
  let '(len, nb) := st in
  let '(len, nb) :=
    if N.land ch 128 =? 0 then ((len + 1)%Z, 0%Z)
    else if N.land ch 224 =? 192 then ((len + 1)%Z, 1%Z)
    else if N.land ch 240 =? 224 then (len, 2%Z)
    else if N.land ch 248 =? 240 then (len, 3%Z)
    else if N.land ch 252 =? 248 then (len, 4%Z)
    else if N.land ch 254 =? 252 then (len, 5%Z)
    else (len, nb) in
  (len, if (nb =? 0)%Z then 1%Z else (nb - 1)%Z).
Definition char_length (v : val) : res :=
  match v with
  | VNull => RNull
  | _ => RInt (fst (fold_left char_step (get_string v) (0%Z, 0%Z)))
  end.

(** boost::split at commas. *)
Fixpoint split_commas (s : bytes) : list bytes :=
  match s with
  | [] => [[]]
  | c :: r => if c =? 44 then [] :: split_commas r
              else match split_commas r with
                   | p :: l => (c :: p) :: l
                   | [] => [[c]]
                   end
  end.
Fixpoint bytes_eqb (a b : bytes) : bool :=
  match a, b with
  | [], [] => true
  | x :: a', y :: b' => (x =? y) && bytes_eqb a' b'
  | _, _ => false
  end.
(** The search loops of find_in_set and field, internal_functions.cpp:2975-2980
    and 3272-3278. *)
Fixpoint place (t : bytes) (l : list bytes) (i : Z) : Z :=
  match l with
  | [] => 0%Z
  | s :: r => if bytes_eqb s t then (i + 1)%Z else place t r (i + 1)
  end.
(** find_in_set, internal_functions.cpp:2965-2982. *)
Definition find_in_set (t s : val) : res :=
  if is_null t || is_null s then RNull
  else RInt (place (get_string t) (split_commas (get_string s)) 0).
(** field, internal_functions.cpp:3264-3280. *)
Definition field (t : val) (l : list val) : res :=
  if is_null t || existsb is_null l then RNull
  else match l with [] => RNull | _ => RInt (place (get_string t) (map get_string l) 0) end.
(** elt, internal_functions.cpp:3188-3201. *)
Definition elt (n : option Z) (l : list val) : res :=
  match n with
  | None => RNull
  | Some z =>
      if existsb is_null l then RNull
      else if ((z <? 1) || (Z.of_nat (length l) <? z))%Z then RNull
      else match nth_error l (Z.to_nat (z - 1)) with
           | Some v => RStr (get_string v)
           | None => RBad
           end
  end.

(** The loop of make_set, internal_functions.cpp:3057-3071. *)
Fixpoint make_set_loop (num : Z) (l : list bytes) (flag : bool) (out : bytes) : bytes :=
  match l with
  | [] => out
  | s :: r =>
      let '(flag, out) :=
        if Z.odd num then (true, (if flag then out ++ [44] else out) ++ s) else (flag, out) in
      let num := Z.shiftr num 1 in
      if (num =? 0)%Z then out else make_set_loop num r flag out
  end.
(** make_set, internal_functions.cpp:3047-3073. *)
Definition make_set (n : option Z) (l : list val) : res :=
  match n with
  | None => RNull
  | Some z => if existsb is_null l then RNull
              else match l with
                   | [] => RNull
                   | _ => RStr (make_set_loop z (map get_string l) false [])
                   end
  end.

(** The loop of export_set, internal_functions.cpp:3007-3017. *)
Fixpoint export_loop (left : nat) (first : bool) (num : Z) (on off sep out : bytes) : bytes :=
  match left with
  | O => out
  | S k =>
      let out := if first then out else out ++ sep in
      let out := out ++ (if Z.odd num then on else off) in
      export_loop k false (Z.shiftr num 1) on off sep out
  end.
(** export_set, internal_functions.cpp:2984-3019, all five arguments given and
    none of them NULL. *)
Definition export_set (z : Z) (on off sep : bytes) (n : Z) : bytes :=
  let n := if ((64 <? n) || (n <? 1))%Z then 64%Z else n in
  export_loop (Z.to_nat n) true z on off sep [].

(** quote, internal_functions.cpp:3282-3303. *)
Definition quote (v : val) : res :=
  match v with
  | VNull => RNull
  | _ => RStr ([39] ++ flat_map (fun c => if c =? 39 then [92; 39]
                                          else if c =? 92 then [92; 92] else [c])
                         (get_string v) ++ [39])
  end.

(** format, internal_functions.cpp:3251-3261, from the text that the stream has
    written for the rounded number. *)
Fixpoint find_dot (s : bytes) : nat :=
  match s with
  | [] => O
  | c :: r => if c =? 46 then O else S (find_dot r)
  end.
Fixpoint commas (fuel : nat) (i : Z) (s : bytes) : bytes :=
  match fuel with
  | O => s
  | S f => if (0 <? i)%Z
           then commas f (i - 3) (firstn (Z.to_nat i) s ++ [44] ++ skipn (Z.to_nat i) s)
           else s
  end.
Definition format_text (s : bytes) : bytes :=
  commas (S (length s)) (Z.of_nat (find_dot s) - 3) s.
