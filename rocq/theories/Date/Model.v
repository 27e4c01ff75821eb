(* Model of the date and time arithmetic: src/common/datetime.cpp, include/common/datetime.h.

   Machine words are Z with explicit reduction: [u32] for unsigned, [i32] for int.  The
   int64_t/time_t additions are not reduced: the theorems bound the arguments so that no
   64-bit sum overflows.  C's / and % are Z.quot and Z.rem. *)
From Coq Require Export ZArith List Bool Lia.
From Verif.Common Require Export Bytes.
Export ListNotations.
Local Open Scope Z_scope.

Definition u32 (x : Z) : Z := x mod 2 ^ 32.
Definition u64 (x : Z) : Z := x mod 2 ^ 64.
Definition i32 (x : Z) : Z := let u := x mod 2 ^ 32 in if u <? 2 ^ 31 then u else u - 2 ^ 32.

(* datetime.cpp:21-23 *)
Definition is_leap (y : Z) : bool :=
  (Z.rem y 4 =? 0) && (negb (Z.rem y 100 =? 0) || (Z.rem y 400 =? 0)).

(* datetime.cpp:25-27 *)
Definition div_floor (a b : Z) : Z := Z.quot (if 0 <=? a then a else a + 1 - b) b.

(* datetime.cpp:31-39 *)
Definition days_from_civil (y m d : Z) : Z :=
  let y := if m <=? 2 then y - 1 else y in
  let era := div_floor y 400 in
  let yoe := u32 (y - era * 400) in
  let doy := u32 (u32 (153 * u32 (m + (if 2 <? m then -3 else 9)) + 2) / 5 + d - 1) in
  let doe := u32 (yoe * 365 + yoe / 4 - yoe / 100 + doy) in
  era * 146097 + doe - 719468.

(* struct tm, without tm_isdst (always 0 here) *)
Record tm := mk_tm { tm_year : Z; tm_mon : Z; tm_mday : Z; tm_hour : Z; tm_min : Z; tm_sec : Z;
                     tm_yday : Z; tm_wday : Z }.

(* datetime.cpp:41-52 *)
Definition mktime_fixed_r (t : tm) (tz : Z) : Z :=
  let year := i32 (tm_year t + 1900) in
  let mon := u32 (tm_mon t + 1) in
  let mday := u32 (tm_mday t) in
  let days := days_from_civil year mon mday in
  let secs := days * 86400 + tm_hour t * 3600 + tm_min t * 60 + tm_sec t in
  secs - tz * 3600.

(* datetime.cpp:81-84 *)
Definition kMonthDays (leap : bool) : list Z :=
  if leap then [0;31;60;91;121;152;182;213;244;274;305;335]
  else [0;31;59;90;120;151;181;212;243;273;304;334].

(* datetime.cpp:66-76: year, month, day of a day count; [days] counts from 1970-01-01 *)
Definition civil_from_days (days : Z) : Z * Z * Z :=
  let z := days + 719468 in
  let era := div_floor z 146097 in
  let doe := u32 (z - era * 146097) in
  let yoe := u32 (doe - doe / 1460 + doe / 36524 - doe / 146096) / 365 in
  let year := i32 (yoe + era * 400) in
  let doy := u32 (doe - u32 (365 * yoe + yoe / 4 - yoe / 100)) in
  let mp := u32 (5 * doy + 2) / 153 in
  let day := u32 (doy - u32 (153 * mp + 2) / 5 + 1) in
  let month := u32 (mp + (if mp <? 10 then 3 else -9)) in
  let year := if month <=? 2 then i32 (year + 1) else year in
  (year, month, day).

(* datetime.cpp:54-99 *)
Definition localtime_fixed_r (timep : Z) (tz : Z) : tm :=
  let t := timep + tz * 3600 in
  let days := Z.quot t 86400 in
  let rem := Z.rem t 86400 in
  let '(days, rem) := if rem <? 0 then (days - 1, rem + 86400) else (days, rem) in
  let '(year, month, day) := civil_from_days days in
  let mon := i32 (u32 (month - 1)) in
  {| tm_year := i32 (year - 1900);
     tm_mon := mon;
     tm_mday := i32 day;
     tm_yday := i32 (u32 (nth (Z.to_nat mon) (kMonthDays (is_leap year)) 0 + day - 1));
     tm_wday := i32 (if -4 <=? days then Z.rem (days + 4) 7 else Z.rem (days + 5) 7 + 6);
     tm_hour := i32 (Z.quot rem 3600);
     tm_min := i32 (Z.quot (Z.rem rem 3600) 60);
     tm_sec := i32 (Z.rem (Z.rem rem 3600) 60) |}.

(* The default argument of both functions (datetime.h:20-21): tz_offset_hours = 8 *)
Definition TZ : Z := 8.

(* ---------- DATETIME ---------- *)

(* The seven values shifted into a DATETIME; the same eight lines occur at
   datetime.cpp:257-265 (text), 294-302 (binary protocol, struct DateTime) and, with
   macrosec = 0, 359-372 (timestamp).  uint64_t arithmetic. *)
Record dtf := mk_dtf { f_year : Z; f_month : Z; f_day : Z; f_hour : Z; f_minute : Z; f_second : Z; f_micro : Z }.
Definition pack (f : dtf) : Z :=
  let year_month := u64 (u64 (f_year f * 13) + f_month f) in
  let d := 0 in
  let d := Z.lor d (u64 (Z.shiftl year_month 46)) in
  let d := Z.lor d (u64 (Z.shiftl (f_day f) 41)) in
  let d := Z.lor d (u64 (Z.shiftl (f_hour f) 36)) in
  let d := Z.lor d (u64 (Z.shiftl (f_minute f) 30)) in
  let d := Z.lor d (u64 (Z.shiftl (f_second f) 24)) in
  Z.lor d (f_micro f).

(* The decoding lines: datetime.cpp:119-126, 311-317, 400-406 *)
Definition unpack (d : Z) : dtf :=
  let year_month := Z.land (Z.shiftr d 46) 0x1FFFF in
  {| f_year := Z.quot year_month 13;
     f_month := Z.rem year_month 13;
     f_day := Z.land (Z.shiftr d 41) 0x1F;
     f_hour := Z.land (Z.shiftr d 36) 0x1F;
     f_minute := Z.land (Z.shiftr d 30) 0x3F;
     f_second := Z.land (Z.shiftr d 24) 0x3F;
     f_micro := Z.land d 0xFFFFFF |}.

(* datetime.cpp:268-302 *)
Definition bin_date_to_datetime (f : dtf) : Z :=
  let year := f_year f in
  let year := if (70 <? year) && (year <? 100) then year + 1900
              else if year <? 70 then year + 2000 else year in
  if (f_month f =? 0) || (12 <? f_month f) then 0
  else if 31 <? f_day f then 0
  else if (23 <? f_hour f) || (59 <? f_minute f) || (59 <? f_second f) then 0
  else pack (mk_dtf year (f_month f) (f_day f) (f_hour f) (f_minute f) (f_second f) (f_micro f)).

(* datetime.cpp:304-331 *)
Definition datetime_to_timestamp (d : Z) : Z :=
  if d =? 0 then 0 else
  let f := unpack d in
  if f_month f =? 0 then 0
  else if f_day f =? 0 then 0
  else
    let t := mktime_fixed_r (mk_tm (f_year f - 1900) (f_month f - 1) (f_day f) (f_hour f) (f_minute f)
                                   (f_second f) 0 0) TZ in
    if t <=? 0 then 0 else t.

(* datetime.cpp:352-373 *)
Definition timestamp_to_datetime (ts : Z) : Z :=
  if ts =? 0 then 0 else
  let t := localtime_fixed_r ts TZ in
  pack (mk_dtf (tm_year t + 1900) (tm_mon t + 1) (tm_mday t) (tm_hour t) (tm_min t) (tm_sec t) 0).

(* datetime.h:36-44 *)
Definition datetime_to_day (d : Z) : Z := Z.land (Z.shiftr d 41) 0x1F.
Definition datetime_to_month (d : Z) : Z := (Z.land (Z.shiftr d 46) 0x1FFFF) mod 13.
Definition datetime_to_year (d : Z) : Z := (Z.land (Z.shiftr d 46) 0x1FFFF) / 13.

(* datetime.h:61-66: DATE is a 22-bit field of DATETIME *)
Definition datetime_to_date (d : Z) : Z := Z.land (Z.shiftr d 41) 0x3FFFFF.
Definition date_to_datetime (d : Z) : Z := u64 (Z.shiftl d 41).

(* ---------- TIME ---------- *)

(* The lines packing a TIME: datetime.cpp:550-558, 570-577, 590-596 *)
Definition pack_time (hour min sec : Z) (minus : bool) : Z :=
  let t := 0 in
  let t := Z.lor t sec in
  let t := Z.lor t (i32 (Z.shiftl min 6)) in
  let t := Z.lor t (i32 (Z.shiftl hour 12)) in
  if minus then i32 (- t) else t.

(* The decoding lines: datetime.cpp:443-450, 458-465 (hour, minute, second, minus) *)
Definition unpack_time (t : Z) : Z * Z * Z * bool :=
  let '(minus, t) := if t <? 0 then (true, i32 (- t)) else (false, t) in
  (Z.land (Z.shiftr t 12) 0x3FF, Z.land (Z.shiftr t 6) 0x3F, Z.land t 0x3F, minus).

(* datetime.cpp:457-471 *)
Definition time_to_seconds (t : Z) : Z :=
  let '(hour, min, sec, minus) := unpack_time t in
  let res := i32 (sec + min * 60 + hour * 3600) in
  if minus then i32 (res * -1) else res.

(* datetime.cpp:580-597; seconds <> INT32_MIN, whose negation is undefined in C *)
Definition seconds_to_time (seconds : Z) : Z :=
  let '(minus, seconds) := if seconds <? 0 then (true, i32 (- seconds)) else (false, seconds) in
  let sec := Z.rem seconds 60 in
  let min := Z.rem (Z.quot seconds 60) 60 in
  let hour := Z.quot seconds 3600 in
  pack_time hour min sec minus.

(* datetime.cpp:561-578; the struct fields day, hour, ... are read into ints *)
Definition bin_time_to_datetime (day hour minute second : Z) (is_negative : bool) : Z :=
  let day := i32 day in let hour := i32 hour in let minute := i32 minute in let second := i32 second in
  if (day <? 0) || (hour <? 0) || (minute <? 0) || (59 <? minute) || (second <? 0) || (59 <? second) then 0
  else pack_time (i32 (hour + i32 (day * 24))) minute second is_negative.

(* datetime.cpp:376-386: the MYSQL_TYPE_TIME branch; (is_negative, day, hour, minute, second) *)
Definition time_to_time_struct (t : Z) : bool * Z * Z * Z * Z :=
  let '(minus, t) := if t <? 0 then (true, i32 (- t)) else (false, t) in
  let hour := Z.land (Z.shiftr t 12) 0x3FF in
  (minus, hour / 24, hour mod 24, Z.land (Z.shiftr t 6) 0x3F, Z.land t 0x3F).

(* datetime.cpp:410-419 *)
Definition datetime_to_time (d : Z) : Z :=
  pack_time (Z.land (Z.shiftr d 36) 0x1F) (Z.land (Z.shiftr d 30) 0x3F) (Z.land (Z.shiftr d 24) 0x3F) false.

(* datetime.cpp:420-441; ::time(NULL) is the argument [clock] *)
Definition time_to_datetime (clock t : Z) : Z :=
  let now := Z.quot (clock + 28800) 86400 * 86400 in
  let '(hour, min, sec, minus) := unpack_time t in
  let delta := i32 (u32 (hour * 3600 + min * 60 + sec)) in
  let delta := if minus then i32 (- delta) else delta in
  timestamp_to_datetime (now - 28800 + delta).

(* ---------- intervals ---------- *)

(* datetime.h TimeUnit *)
Inductive time_unit := YEAR | MONTH | DAY | HOUR | MINUTE | SECOND.

(* datetime.cpp:849 *)
Definition days_in_month : list Z := [31;28;31;30;31;30;31;31;30;31;30;31].

(* datetime.cpp:857-882, the YEAR and MONTH branches on the broken-down date;
   mon is 0-based; `int += int64_t` truncates to int *)
Definition add_ym (unit_year : bool) (interval year mon day : Z) : Z * Z * Z :=
  if unit_year then
    let year := i32 (year + interval) in
    (year, mon, if (mon + 1 =? 2) && (day =? 29) && negb (is_leap year) then 28 else day)
  else
    let mon := i32 (mon + interval) in
    let year := i32 (year + Z.quot mon 12 + (if mon <? 0 then -1 else 0)) in
    let mon := Z.rem (Z.rem mon 12 + 12) 12 in
    let dim := nth (Z.to_nat mon) days_in_month 0 in
    (year, mon, if dim <? day then (if (mon + 1 =? 2) && is_leap year then dim + 1 else dim) else day).

(* datetime.cpp:848-906 *)
Definition date_add_interval (ts interval : Z) (u : time_unit) : Z :=
  match u with
  | YEAR | MONTH =>
    let t := localtime_fixed_r ts TZ in
    let '(year, mon, day) :=
      add_ym (match u with YEAR => true | _ => false end) interval (tm_year t + 1900) (tm_mon t) (tm_mday t) in
    mktime_fixed_r (mk_tm (i32 (year - 1900)) mon day (tm_hour t) (tm_min t) (tm_sec t) (tm_yday t) (tm_wday t)) TZ
  | DAY => ts + interval * 86400
  | HOUR => ts + interval * 3600
  | MINUTE => ts + interval * 60
  | SECOND => ts + interval
  end.

(* datetime.cpp:908-910 *)
Definition date_sub_interval (ts interval : Z) (u : time_unit) : Z := date_add_interval ts (- interval) u.

(* datetime.cpp:912-925, with an explicit current_ts *)
Definition get_current_day_timestamp (ts : Z) : Z :=
  let t := localtime_fixed_r ts TZ in
  mktime_fixed_r (mk_tm (tm_year t) (tm_mon t) (tm_mday t) 0 0 0 (tm_yday t) (tm_wday t)) TZ.
