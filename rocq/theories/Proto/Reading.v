(* What a stored value is supposed to look like to the client, and what a client's parameter is
   supposed to become: the correspondence between the server's values and the values of the
   protocol.  Written with the calendar notions of Date/Spec.v and Date/Reading.v. *)
From Coq Require Import ZArith List Bool.
From Verif Require Import Common.Bytes Date.Model Date.Spec Date.Reading Proto.Spec Proto.Model.
Import ListNotations.
Local Open Scope Z_scope.

Definition text_type (t : mtype) : Prop := t = T_STRING \/ t = T_BLOB \/ t = T_VAR_STRING.
Definition int_type (t : mtype) : Prop := t = T_TINY \/ t = T_SHORT \/ t = T_LONG \/ t = T_INT24 \/ t = T_LONGLONG.
Definition real_type (t : mtype) : Prop := t = T_FLOAT \/ t = T_DOUBLE.

(* a text column: NULL, text or a number in decimal *)
Inductive reads_as : cell -> option (list Z) -> Prop :=
| ra_null : reads_as CNull None
| ra_text s : reads_as (CText s) (Some s)
| ra_int v s : dec_value s = Some v -> - 2 ^ 63 <= v < 2 ^ 63 -> reads_as (CInt v) (Some s)
| ra_uint v s : dec_value s = Some v -> 0 <= v < 2 ^ 64 -> reads_as (CUint v) (Some s).
Definition in_range (c : cell) : Prop :=
  match c with CInt v => - 2 ^ 63 <= v < 2 ^ 63 | CUint v => 0 <= v < 2 ^ 64 | _ => True end.

(* a binary column *)
Inductive shows : mtype -> bcell -> bval -> Prop :=
| sh_null t : shows t KNull BNull
| sh_text t s : text_type t -> shows t (KStr s) (BStr s)
| sh_num t w v : int_width t = Some w -> 0 <= v < 256 ^ Z.of_nat w -> shows t (KNum v) (BInt v)
| sh_datetime f : fields_ok f ->
    shows T_DATETIME (KNum (pack f)) (BDate (f_year f) (f_month f) (f_day f) (f_hour f) (f_minute f) (f_second f) (f_micro f))
| sh_date y m d : 0 <= y <= 9999 -> 0 <= m <= 12 -> 0 <= d <= 31 ->
    shows T_DATE (KNum (datetime_to_date (pack (mk_dtf y m d 0 0 0 0)))) (BDate y m d 0 0 0 0)
| sh_timestamp n y m d h mi s : day_is n (y, m, d) -> valid_tod h mi s -> 0 <= y <= 9999 ->
    shows T_TIMESTAMP (KNum (instant n h mi s)) (BDate y m d h mi s 0)
| sh_time neg d h mi s v : 0 <= d -> 0 <= h < 24 -> d * 24 + h < 1024 -> 0 <= mi < 60 -> 0 <= s < 60 ->
    (neg = true -> 0 < d + h + mi + s) -> i32 v = pack_time (d * 24 + h) mi s neg ->
    shows T_TIME (KNum v) (BTime neg d h mi s 0).

(* the cases in which the server sends something else: the fraction of a DATETIME, and a TIME
   of whole days *)
Definition sent_in_full (v : bval) : Prop :=
  match v with
  | BDate _ _ _ _ _ _ us => us = 0
  | BTime _ d h mi s _ => d = 0 \/ 0 < h + mi + s
  | _ => True
  end.

(* a parameter: type, unsigned flag, the client's value, what the statement is given *)
Inductive passes : mtype -> bool -> bval -> param -> Prop :=
| pa_null t u : passes t u BNull PNull
| pa_text t u s : text_type t -> Z.of_nat (length s) < 2 ^ 31 -> passes t u (BStr s) (PStr s)
| pa_int t (u : bool) w v : int_type t -> int_width t = Some w ->
    (if u then 0 <= v < 256 ^ Z.of_nat w else - (256 ^ Z.of_nat w / 2) <= v < 256 ^ Z.of_nat w / 2) ->
    passes t u (BInt v) (PInt (negb u) w v)
| pa_real t u w bits : real_type t -> int_width t = Some w -> 0 <= bits < 256 ^ Z.of_nat w ->
    passes t u (BInt bits) (PReal w bits)
| pa_date t u y m d h mi s us : t = T_DATE \/ t = T_DATETIME \/ t = T_TIMESTAMP ->
    valid_fields y m d h mi s us -> 1 <= m -> 100 <= y ->
    passes t u (BDate y m d h mi s us) (PDatetime (pack (mk_dtf y m d h mi s us)))
| pa_no_date t u : t = T_DATE \/ t = T_DATETIME \/ t = T_TIMESTAMP -> passes t u (BDate 0 0 0 0 0 0 0) (PDatetime 0)
| pa_time u neg d h mi s us : 0 <= d -> 0 <= h < 24 -> d * 24 + h < 1024 -> 0 <= mi < 60 -> 0 <= s < 60 -> 0 <= us < 1000000 ->
    0 < d + h + mi + s + us ->
    passes T_TIME u (BTime neg d h mi s us) (PTime (pack_time (d * 24 + h) mi s neg)).
