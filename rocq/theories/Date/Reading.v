(* What the statements say about the model's results: readings of struct tm, of the packed
   DATETIME and TIME fields and of date texts in the terms of Spec.v. *)
From Verif.Date Require Import Model TextModel Spec.
Local Open Scope Z_scope.

(* The calendar and clock reading of a point in time *)
Definition tm_date (t : tm) : date := (tm_year t + 1900, tm_mon t + 1, tm_mday t).
(* Both reading before and after, and the time of day *)
Definition same_tod (t t' : tm) : Prop := tm_hour t' = tm_hour t /\ tm_min t' = tm_min t /\ tm_sec t' = tm_sec t.
Definition unit_seconds (u : time_unit) : option Z :=
  match u with DAY => Some 86400 | HOUR => Some 3600 | MINUTE => Some 60 | SECOND => Some 1 | _ => None end.
Definition fields_ok (f : dtf) : Prop :=
  valid_fields (f_year f) (f_month f) (f_day f) (f_hour f) (f_minute f) (f_second f) (f_micro f).
Definition flist (f : dtf) : list Z := [f_year f; f_month f; f_day f; f_hour f; f_minute f; f_second f; f_micro f].
(* The instant, in seconds since 1970-01-01 00:00:00 UTC, of a wall clock reading in UTC+8 *)
Definition instant (n h mi s : Z) : Z := n * 86400 + h * 3600 + mi * 60 + s - 8 * 3600.
(* A TIME the representation can hold; MySQL's range is 838:59:59 *)
Definition time_ok (h mi s : Z) : Prop := 0 <= h < 1024 /\ 0 <= mi < 60 /\ 0 <= s < 60.
(* The value of a fraction cut to p digits *)
Definition cut (us p : Z) : Z := us / 10 ^ (6 - p) * 10 ^ (6 - p).
(* How many fractional digits datetime_to_str prints *)
Definition digits_shown (us p : Z) : Z :=
  if (0 <? p) && (p <=? 6) then p else if (p =? 0) || (us =? 0) then 0 else 6.
(* the first byte that is not white space is a minus sign *)
Definition starts_minus (s : list Z) : bool := match skip_space s with c :: _ => c =? 45 | [] => false end.
(* a dot followed, after optional white space, by a minus sign *)
Fixpoint dot_minus (s : list Z) : bool :=
  match s with [] => false | c :: s' => ((c =? 46) && starts_minus s') || dot_minus s' end.
(* In-range fields, as a DATETIME column admits them *)
Definition in_range (d : Z) : Prop := d = 0 \/ exists f, fields_ok f /\ d = pack f.
