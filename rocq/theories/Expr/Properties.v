(* C25, C38, C39: SQL conditions, comparison of values and rows, integer arithmetic. *)
From Verif Require Import Common.Bytes Expr.Value Expr.Model Expr.Spec Expr.Proofs Expr.RowCompare Expr.Arith Expr.Mixed.
Local Open Scope Z_scope.

(* ---------- C25 ---------- *)

(* Every condition of the class [ok] (AND, OR, XOR, NOT, IS NULL, IS TRUE, comparisons and
   IN lists over columns and literals whose comparison needs no lossy conversion) has
   its SQL value in every row, NULL included. *)
Theorem C25_three_valued : forall r e, ok r e ->
  exists v, eval r e = Some v /\ denote v = sql r e.
Proof. intros r e H. destruct (eval_ok r e H) as (v&E&D&_). eauto. Qed.
Print Assumptions C25_three_valued.

(* WHERE keeps a row exactly when every conjunct is TRUE: FALSE and UNKNOWN both drop it. *)
Theorem C25_where : forall r cs, Forall (fun c => ok r c /\ condition c) cs ->
  exists b, need_copy cs r = Some b /\
    (b = true <-> Forall (fun c => truth (sql r c) = Some true) cs).
Proof. exact need_copy_ok. Qed.
Print Assumptions C25_where.

(* Outside that class the code departs from SQL.  NOT ((a AND NULL) IN (5)) at a = 0: the
   left operand is FALSE, so SQL says TRUE; the code says NULL. *)
Theorem C25_in_null_refuted :
  let e := ENot (EIn (EAnd [ESlot 0 PI64; ELit vnull]) [ELit (vnum PI64 5)]) in
  let r := fun _ : nat => vnum PI64 0 in
  eval r e = Some vnull /\ sql r e = of_tv (Some true).
Proof. split; vm_compute; reflexivity. Qed.
Print Assumptions C25_in_null_refuted.

(* a TINYINT column holding 44 is found by IN (300) *)
Theorem C25_in_narrow_refuted :
  let e := EIn (ESlot 0 PI8) [ELit (vnum PI64 300)] in
  let r := fun _ : nat => vnum PI8 44 in
  eval r e = Some (vbool true) /\ sql r e = of_tv (Some false).
Proof. split; vm_compute; reflexivity. Qed.
Print Assumptions C25_in_narrow_refuted.

(* an integer column holding 2 equals 2.5 and is not below it *)
Theorem C25_fraction_refuted :
  let r := fun _ : nat => vnum PI64 2 in
  let eq := ECmp CEq (ESlot 0 PI64) (ELit (vdbl 5 1)) in
  let lt := ECmp CLt (ESlot 0 PI64) (ELit (vdbl 5 1)) in
  eval r eq = Some (vbool true) /\ sql r eq = of_tv (Some false) /\
  eval r lt = Some (vbool false) /\ sql r lt = of_tv (Some true).
Proof. repeat split; vm_compute; reflexivity. Qed.
Print Assumptions C25_fraction_refuted.

(* a = 1 OR NOT (b IN (2, NULL)), with a NULL and b = 3: UNKNOWN, so the row is dropped *)
Example C25_nonvacuous :
  let e := EOr [ECmp CEq (ESlot 0 PI64) (ELit (vnum PI64 1));
                ENot (EIn (ESlot 1 PI32) [ELit (vnum PI64 2); ELit vnull])] in
  let r := fun i : nat => match i with O => vnull | _ => vnum PI32 3 end in
  let r2 := fun i : nat => match i with O => vnum PI64 1 | _ => vnum PI32 3 end in
  ok r e /\ condition e /\ sql r e = SNull /\ need_copy [e] r = Some false /\
  ok r2 e /\ need_copy [e] r2 = Some true.
Proof.
  assert (forall x, holds PI64 x -> fits PI64 x ->
    let r := fun i : nat => match i with O => x | _ => vnum PI32 3 end in
    ok r (EOr [ECmp CEq (ESlot 0 PI64) (ELit (vnum PI64 1));
                ENot (EIn (ESlot 1 PI32) [ELit (vnum PI64 2); ELit vnull])])) as G.
  { intros x Hx Fx. cbn [ok map].
    constructor; [|constructor; [|constructor]]; unfold id; (split; [|discriminate]); cbn [ok].
    - split; [exact Hx|]. split; [repeat constructor; cbn; lia|]. do 2 (split; [exact Logic.I|]).
      split; [discriminate|]. split; [exact Fx|]. right. cbn. split; [left; reflexivity|lia].
    - split; [|discriminate]. split; [split; [cbn; repeat split; lia|split; [discriminate|right; reflexivity]]|]. split; [discriminate|].
      exists PI32, 1%nat. split; [reflexivity|]. split; [discriminate|].
      constructor; [|constructor; [|constructor]]; eexists; (split; [reflexivity|]).
      + split; [repeat constructor; cbn; lia|]. right. right. split; [reflexivity|]. split; [left; reflexivity|reflexivity].
      + split; [repeat constructor|]. left. reflexivity. }
  split; [apply (G vnull); [split; [cbn; auto|split; [discriminate|left; reflexivity]]|left; reflexivity]|].
  split; [discriminate|]. split; [reflexivity|]. split; [reflexivity|].
  split; [apply (G (vnum PI64 1)); [|right; cbn; split; [left; reflexivity|lia]]|reflexivity].
  split; [repeat constructor; cbn; lia|split; [discriminate|right; reflexivity]].
Qed.

(* ---------- C38 ---------- *)

(* Two values of one type compare as the SQL values they stand for *)
Theorem C38_order : forall x y, wf x -> wf y -> vt x = vt y -> vt x <> PNull ->
  order (denote x) (denote y) = Some (compare x y ?= 0).
Proof. exact compare_order. Qed.
Print Assumptions C38_order.

(* so do values of different types, when both can be converted to the common type
   without loss *)
Theorem C38_mixed_partial : forall x y, wf x -> wf y -> is_null x = false -> is_null y = false ->
  vt x <> vt y -> common (vt x) (vt y) <> PNull ->
  fits (common (vt x) (vt y)) x -> fits (common (vt x) (vt y)) y ->
  exists c, compare_diff_type x y = Some c /\ order (denote x) (denote y) = Some (c ?= 0).
Proof. exact mixed_order. Qed.
Print Assumptions C38_mixed_partial.

(* not for a negative INT and an unsigned: -1 > 1u *)
Theorem C38_mixed_refuted :
  compare_diff_type (vnum PI64 (-1)) (vnum PU64 1) = Some 1 /\
  order (denote (vnum PI64 (-1))) (denote (vnum PU64 1)) = Some Lt.
Proof. split; vm_compute; reflexivity. Qed.
Print Assumptions C38_mixed_refuted.

(* NULL is below every value when it stands on the left; on the right it compares as 0 or '' *)
Theorem C38_null_left : forall y, compare vnull y = if is_null y then 0 else -1.
Proof. reflexivity. Qed.
Print Assumptions C38_null_left.
Theorem C38_null_right_refuted :
  compare (vnum PI64 0) vnull = 0 /\ compare vnull (vnum PI64 0) = -1 /\
  compare (vnum PI64 (-3)) vnull = -1 /\ compare (vstr []) vnull = 0.
Proof. repeat split; vm_compute; reflexivity. Qed.
Print Assumptions C38_null_right_refuted.

(* Rows for ORDER BY: the comparison is by the first ordering column that differs, NULLs
   first or last as asked, DESC reversing ... *)
Theorem C38_rows : forall ts specs l r, typed ts l -> typed ts r ->
  (row_compare specs l r ?= 0) = lex specs (map denote l) (map denote r).
Proof. exact row_compare_lex. Qed.
Print Assumptions C38_rows.
(* ... and is a total preorder: sorting by it is well defined *)
Theorem C38_rows_preorder : forall ts specs,
  (forall a, typed ts a -> row_compare specs a a = 0) /\
  (forall a b, typed ts a -> typed ts b -> row_compare specs a b <= 0 \/ row_compare specs b a <= 0) /\
  (forall a b, typed ts a -> typed ts b -> row_compare specs a b < 0 <-> 0 < row_compare specs b a) /\
  (forall a b c, typed ts a -> typed ts b -> typed ts c ->
     row_compare specs a b <= 0 -> row_compare specs b c <= 0 -> row_compare specs a c <= 0).
Proof. exact row_preorder. Qed.
Print Assumptions C38_rows_preorder.
Example C38_nonvacuous :
  let ts := [PI64; PString] in let specs := [(false, true); (true, true)] in
  let a := [vnum PI64 5; vstr [98]] in let b := [vnum PI64 5; vstr [98; 0]] in let c := [vnull; vstr []] in
  typed ts a /\ typed ts b /\ typed ts c /\
  row_compare specs a b = -1 /\ row_compare specs c a = -1 /\ row_compare specs b c = 1.
Proof.
  cbv zeta. split; [|split; [|split]]; try (repeat split; reflexivity);
    (constructor; [|constructor; [|constructor]]; (split; [cbn; repeat split; try lia; repeat constructor; lia|]);
     (split; [discriminate|]); (left; reflexivity) || (right; reflexivity)).
Qed.

(* ---------- C39 ---------- *)

(* +, -, * of signed integers are exact when the result is an INT64; otherwise the
   program's behaviour is undefined (None) *)
Theorem C39_signed_partial : forall o ta tb x y r,
  int_of ta x -> int_of tb y -> is_uint ta = false -> is_uint tb = false ->
  exact o (vz x) (vz y) = Some r ->
  arith_value o ta tb x y = if in_range PI64 r then Some (vnum PI64 r) else None.
Proof. exact arith_signed. Qed.
Print Assumptions C39_signed_partial.
(* with an unsigned operand they are exact modulo 2^64 *)
Theorem C39_unsigned_partial : forall o ta tb x y r,
  int_of ta x -> int_of tb y -> is_uint ta = true \/ is_uint tb = true ->
  exact o (vz x) (vz y) = Some r ->
  arith_value o ta tb x y = Some (vnum PU64 (r mod 2^64)).
Proof. exact arith_unsigned. Qed.
Print Assumptions C39_unsigned_partial.
(* NULL in, NULL out, for every operator *)
Theorem C39_null : forall o ta tb x y,
  is_int ta = true -> is_int tb = true ->
  (is_null x = true \/ int_of ta x) -> (is_null y = true \/ int_of tb y) ->
  is_null x = true \/ is_null y = true ->
  arith_value o ta tb x y = Some vnull.
Proof. exact arith_null. Qed.
Print Assumptions C39_null.
(* MOD: NULL for a zero divisor, else the remainder with the sign of the dividend; one
   signed case is undefined *)
Theorem C39_mod_signed_partial : forall ta tb x y,
  int_of ta x -> int_of tb y -> is_uint ta = false -> is_uint tb = false ->
  arith_value BMod ta tb x y =
    if vz y =? 0 then Some vnull
    else if (vz x =? - 2^63) && (vz y =? -1) then None
    else Some (vnum PI64 (Z.rem (vz x) (vz y))).
Proof. exact mod_signed. Qed.
Print Assumptions C39_mod_signed_partial.
Theorem C39_mod_unsigned_partial : forall ta tb x y,
  int_of ta x -> int_of tb y -> is_uint ta = true \/ is_uint tb = true ->
  0 <= vz x -> 0 <= vz y ->
  arith_value BMod ta tb x y =
    if vz y =? 0 then Some vnull else Some (vnum PU64 (vz x mod vz y)).
Proof. exact mod_unsigned. Qed.
Print Assumptions C39_mod_unsigned_partial.
(* The full claim, an exact result or an error, fails: undefined overflow, silent
   wrapping of unsigned differences, wrong remainders and negations, and shifts by 64. *)
Theorem C39_exact_refuted :
  arith_value BAdd PI64 PI64 (vnum PI64 (2^63 - 1)) (vnum PI64 1) = None /\
  arith_value BSub PU64 PU64 (vnum PU64 1) (vnum PU64 2) = Some (vnum PU64 (2^64 - 1)) /\
  arith_value BMod PI64 PI64 (vnum PI64 (- 2^63)) (vnum PI64 (-1)) = None /\
  arith_value BMod PI64 PU64 (vnum PI64 (-7)) (vnum PU64 3) = Some (vnum PU64 0) /\
  Z.rem (-7) 3 = -1 /\
  neg_value PU64 (vnum PU64 1) = Some (vnum PU64 (2^64 - 1)) /\
  arith_value BShl PI64 PI64 (vnum PI64 1) (vnum PI64 64) = None.
Proof. repeat split; vm_compute; reflexivity. Qed.
Print Assumptions C39_exact_refuted.
Example C39_nonvacuous :
  int_of PI32 (vnum PI32 (-7)) /\ int_of PU8 (vnum PU8 200) /\
  arith_value BMul PI32 PI32 (vnum PI32 (-7)) (vnum PI32 2000000000) = Some (vnum PI64 (-14000000000)) /\
  arith_value BMod PI32 PI32 (vnum PI32 (-7)) (vnum PI32 3) = Some (vnum PI64 (-1)) /\
  arith_value BAdd PI32 PU8 (vnum PI32 (-7)) (vnum PU8 200) = Some (vnum PU64 193).
Proof. repeat split; vm_compute; congruence. Qed.
