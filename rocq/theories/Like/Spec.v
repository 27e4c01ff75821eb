(* What LIKE means, independently of the matcher. *)
From Verif.Common Require Import Bytes.
From Verif.Like Require Import Model. (* for the names of the character sets *)
Local Open Scope Z_scope.

(* a pattern is a sequence of items *)
Inductive item := AnySeq | AnyOne | Lit (c : list Z).

(* a character is a non-empty byte string; a text is a list of characters *)
Inductive matches : list item -> list (list Z) -> Prop :=
| m_nil : matches [] []
| m_lit c ps cs : matches ps cs -> matches (Lit c :: ps) (c :: cs)
| m_one c ps cs : matches ps cs -> matches (AnyOne :: ps) (c :: cs)
| m_seq skipped ps cs : matches ps cs -> matches (AnySeq :: ps) (skipped ++ cs).

(* reading a pattern text: % and _ are wildcards, a backslash makes the next character
   literal (a backslash at the very end stands for itself) *)
Fixpoint items (cs : list (list Z)) : list item :=
  match cs with
  | [] => []
  | [37] :: r => AnySeq :: items r
  | [95] :: r => AnyOne :: items r
  | [92] :: d :: r => Lit d :: items r
  | c :: r => Lit c :: items r
  end.

(* UTF-8 *)
Definition cont (b : Z) : Prop := 128 <= b < 192.
Inductive utf8_char : list Z -> Prop :=
| u1 a : 0 <= a < 128 -> utf8_char [a]
| u2 a b : 192 <= a < 224 -> cont b -> utf8_char [a; b]
| u3 a b c : 224 <= a < 240 -> cont b -> cont c -> utf8_char [a; b; c]
(* lead bytes 248..255 are not UTF-8; the code reads them as lead bytes of four, and so does
   this specification, which only widens the range of the theorems *)
| u4 a b c d : 240 <= a < 256 -> cont b -> cont c -> cont d -> utf8_char [a; b; c; d].

(* GBK *)
Inductive gbk_char : list Z -> Prop :=
| g1 a : 0 <= a < 128 -> gbk_char [a]
| g2 a b : 129 <= a <= 254 -> (64 <= b <= 126 \/ 128 <= b <= 254) -> gbk_char [a; b].

(* the characters of each character set *)
Definition char_of (cs : charset) (c : list Z) : Prop :=
  match cs with CBinary => exists b, c = [b] | CUtf8 => utf8_char c | CGbk => gbk_char c end.

(* a byte string read byte by byte *)
Definition bytes_of (s : list Z) : list (list Z) := map (fun b => [b]) s.

Definition starts_with (s t : list Z) : Prop := exists rest, t = s ++ rest.

(* a pattern that ends in a backslash which is not itself escaped *)
Fixpoint lone_escape (p : list Z) : bool :=
  match p with
  | [] => false
  | [92] => true
  | 92 :: _ :: r => lone_escape r
  | _ :: r => lone_escape r
  end.

(* a way of cutting a byte string into characters; [ok] says which multi-byte characters exist,
   and a byte that belongs to none of them counts as a character of its own *)
Definition reading (ok : list Z -> Prop) (s : list Z) (us : list (list Z)) : Prop :=
  concat us = s /\ Forall (fun c => ok c \/ exists b, c = [b]) us.
