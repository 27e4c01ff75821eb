(** C91: functions that write or read texts (HEX, UNHEX, BIN, OCT, CHAR_LENGTH,
    FIND_IN_SET, FIELD, ELT, MAKE_SET, EXPORT_SET, QUOTE, FORMAT) lose nothing
    and miscount nothing. *)
From Coq Require Import Bool ZArith NArith List Lia.
From Verif Require Import Str.Spec Str.Model Str.Proofs Str.CodeSpec Str.Code Str.CodeProofs.
Import ListNotations.
Open Scope N_scope.

Theorem C91_hex : forall s, Forall (fun b => b < 256) s ->
  exists r, hex (VStr s) = RStr r /\ is_hex s r /\ unhex (VStr r) = RStr s.
Proof.
  intros s F. exists (flat_map hex2 s). split; [reflexivity|]. split; [apply hex_ok; exact F|].
  unfold unhex. cbn [get_string]. rewrite hex_length, Nat.even_mul. cbn [Nat.even orb].
  rewrite unhex_hex by exact F. reflexivity.
Qed.
Print Assumptions C91_hex.

(** UNHEX of any text: NULL unless it consists of digits; otherwise HEX gives the
    text back, in capitals and with a 0 in front if its length is odd. *)
Theorem C91_unhex : forall x,
  match unhex (VStr x) with
  | RStr r =>
      Forall (fun c => (48 <= c <= 57) \/ (65 <= c <= 70) \/ (97 <= c <= 102)) x /\
      hex (VStr r) = RStr (map (fun c => if (97 <=? c) && (c <=? 102) then c - 32 else c)
                             (if Nat.even (length x) then x else 48 :: x))
  | RNull => ~ Forall (fun c => (48 <= c <= 57) \/ (65 <= c <= 70) \/ (97 <= c <= 102)) x
  | _ => False
  end.
Proof. exact unhex_ok. Qed.
Print Assumptions C91_unhex.

Example C91_hex_ex : hex (VStr [0; 10; 255]) = RStr [48; 48; 48; 65; 70; 70] /\
                     unhex (VStr [49; 70; 102]) = RStr [1; 255].
Proof. split; reflexivity. Qed.

Theorem C91_numerals : forall z,
  is_numeral 2 (as_uint64 z) (bin z) /\ is_numeral 8 (as_uint64 z) (oct z) /\
  exists r, hex (VInt z) = RStr r /\ is_numeral 16 (as_uint64 z) r.
Proof.
  intros z. pose proof (u64_bound z) as B.
  assert (D : forall base, 2 <= base <= 16 -> is_numeral base (as_uint64 z) (digits base (as_uint64 z)))
    by (intros base R; apply digits_ok; assumption).
  assert (C : cast_u64 z = as_uint64 z) by reflexivity.
  unfold bin, oct, hex. rewrite C.
  split; [apply D; lia|]. split; [apply D; lia|].
  eexists. split; [reflexivity|]. apply D; lia.
Qed.
Print Assumptions C91_numerals.

Example C91_numerals_ex : bin 10 = [49; 48; 49; 48] /\ hex (VInt (-1)) = RStr (repeat 70 16) /\
                          oct 0 = [48].
Proof. repeat split; reflexivity. Qed.

(** CHAR_LENGTH counts the characters below U+0800 only ... *)
Theorem C91_char_length_partial : forall cs, Forall code_point cs ->
  char_length (VStr (flat_map utf8 cs)) = RInt (Z.of_nat (length (filter (fun c => c <? 2048) cs))).
Proof. exact char_length_ok. Qed.
Print Assumptions C91_char_length_partial.

Example C91_char_length_ex :
  char_length (VStr (flat_map utf8 [97; 233; 98])) = RInt 3.
Proof. reflexivity. Qed.

(** ... so it is wrong for every text with another one; a text of Chinese
    characters has length 0. *)
Theorem C91_char_length_refuted :
  (forall cs, Forall code_point cs -> (exists c, In c cs /\ 2048 <= c) ->
     exists n, char_length (VStr (flat_map utf8 cs)) = RInt n /\ (n < Z.of_nat (length cs))%Z) /\
  char_length (VStr (flat_map utf8 [20320; 22909])) = RInt 0.
Proof.
  split; [|reflexivity]. intros cs F (c & I & L). rewrite char_length_ok by exact F.
  eexists. split; [reflexivity|].
  assert (Q : forall l, (length (filter (fun c => (c <? 2048)%N) l) <= length l)%nat).
  { induction l as [|x l IH]; [apply le_n|]. cbn [filter length]. destruct (x <? 2048); cbn [length]; lia. }
  clear F. induction cs as [|x cs IH]; [destruct I|]. cbn [filter].
  destruct I as [->|I].
  - replace (c <? 2048) with false by (symmetry; apply N.ltb_ge; exact L).
    pose proof (Q cs). cbn [length]. lia.
  - specialize (IH I). destruct (x <? 2048); cbn [length]; lia.
Qed.
Print Assumptions C91_char_length_refuted.

Theorem C91_find_in_set : forall t s,
  exists r l, find_in_set (VStr t) (VStr s) = RInt r /\ Pieces [44] s l /\ is_place t l r.
Proof.
  intros t s. exists (place t (split_commas s) 0), (split_commas s).
  split; [reflexivity|]. split; [apply split_commas_ok|apply place_is].
Qed.
Print Assumptions C91_find_in_set.

Example C91_find_in_set_ex :
  find_in_set (VStr [98]) (VStr [97; 98; 44; 98; 44; 98]) = RInt 2.
Proof. reflexivity. Qed.

Theorem C91_field_elt_partial : forall t l z, l <> [] ->
  (exists r, field (VStr t) (map VStr l) = RInt r /\ is_place t l r) /\
  elt (Some z) (map VStr l) =
    (if ((1 <=? z) && (z <=? Z.of_nat (length l)))%Z
     then RStr (nth (Z.to_nat (z - 1)) l []) else RNull).
Proof.
  intros t l z NE.
  assert (E : existsb is_null (map VStr l) = false)
    by (clear NE; induction l; [reflexivity|assumption]).
  assert (G : map get_string (map VStr l) = l) by (rewrite map_map; apply map_id).
  split.
  - exists (place t l 0). unfold field. cbn [is_null orb get_string]. rewrite E, G.
    split; [destruct l; [congruence|reflexivity]|apply place_is].
  - unfold elt. rewrite E, map_length.
    destruct (Z.ltb_spec z 1), (Z.ltb_spec (Z.of_nat (length l)) z), (Z.leb_spec 1 z),
      (Z.leb_spec z (Z.of_nat (length l))); cbn [orb andb]; try lia; try reflexivity.
    rewrite (nth_error_nth' (map VStr l) (VStr [])) by (rewrite map_length; lia).
    rewrite (map_nth VStr). reflexivity.
Qed.
Print Assumptions C91_field_elt_partial.

Theorem C91_make_set_partial : forall z l, l <> [] ->
  make_set (Some z) (map VStr l) = RStr (join [44] (picked z 0 l)).
Proof.
  intros z l NE. unfold make_set.
  assert (E : existsb is_null (map VStr l) = false)
    by (clear NE; induction l; [reflexivity|assumption]).
  assert (G : map get_string (map VStr l) = l) by (rewrite map_map; apply map_id).
  rewrite E, G. destruct l as [|s l]; [congruence|]. cbn [map]. f_equal.
  apply (proj2 (make_set_loop_ok (s :: l) z [])).
Qed.
Print Assumptions C91_make_set_partial.

Example C91_make_set_ex :
  make_set (Some 5%Z) [VStr [97]; VStr [98]; VStr [99]] = RStr [97; 44; 99].
Proof. reflexivity. Qed.

Theorem C91_export_set : forall z on off sep n,
  export_set z on off sep n =
  join sep (map (fun j => if Z.testbit z (Z.of_nat j) then on else off)
              (seq 0 (if ((1 <=? n) && (n <=? 64))%Z then Z.to_nat n else 64))).
Proof. exact export_set_ok. Qed.
Print Assumptions C91_export_set.

(** One NULL in the list hides all the others. *)
Theorem C91_null_refuted : forall s,
  field (VStr s) [VStr s; VNull] = RNull /\ elt (Some 1%Z) [VStr s; VNull] = RNull /\
  make_set (Some 1%Z) [VStr s; VNull] = RNull.
Proof. intros s. repeat split; reflexivity. Qed.
Print Assumptions C91_null_refuted.

Theorem C91_quote : forall s,
  exists r, quote (VStr s) = RStr r /\ literal_of r = Some s.
Proof. intros s. eexists. split; [reflexivity|]. apply quote_ok. Qed.
Print Assumptions C91_quote.

Example C91_quote_ex : quote (VStr [97; 39; 92]) = RStr [39; 97; 92; 39; 92; 92; 39].
Proof. reflexivity. Qed.

(** FORMAT of the text of a number that is not negative: digits [d] and the
    fraction [f] with its point. *)
Theorem C91_format_partial : forall d f,
  d <> [] -> ~ In 46 d -> (f = [] \/ exists r, f = 46 :: r) ->
  exists r, format_text (d ++ f) = r ++ f /\ is_grouped d r.
Proof. exact format_ok. Qed.
Print Assumptions C91_format_partial.

Example C91_format_ex :
  format_text [49; 50; 51; 52; 53; 54; 55; 46; 56]
  = [49; 44; 50; 51; 52; 44; 53; 54; 55; 46; 56].
Proof. reflexivity. Qed.

(** A minus sign counts as a digit: FORMAT(-123, 0) is '-,123'. *)
Theorem C91_format_refuted : forall a b c, 48 <= a <= 57 -> 48 <= b <= 57 -> 48 <= c <= 57 ->
  format_text [45; a; b; c] = [45; 44; a; b; c].
Proof.
  intros a b c A B C. unfold format_text. cbn [find_dot].
  destruct (N.eqb_spec 45 46); [discriminate|].
  destruct (N.eqb_spec a 46); [lia|]. destruct (N.eqb_spec b 46); [lia|].
  destruct (N.eqb_spec c 46); [lia|]. reflexivity.
Qed.
Print Assumptions C91_format_refuted.
