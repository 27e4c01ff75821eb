(* Model of the text forms of DATETIME, DATE and TIME: src/common/datetime.cpp and
   include/common/datetime.h, with the libc pieces they use (isdigit, snprintf with %0Nd,
   sscanf with %Nlu, %d, %u, a negated character class and literals, strtoll).

   Bytes are Z in [0,256).  [mem] is the memory readable from the string pointer on; a read
   outside it is the outcome None. *)
From Verif.Date Require Export Model.
Local Open Scope Z_scope.

Definition is_digit (c : Z) : bool := (48 <=? c) && (c <=? 57).
(* isspace in the C locale *)
Definition is_space (c : Z) : bool := (c =? 32) || ((9 <=? c) && (c <=? 13)).
(* the class 0-9a-z of the scan set *)
Definition is_alnum_lower (c : Z) : bool := is_digit c || ((97 <=? c) && (c <=? 122)).

(* ---------- printing ---------- *)

(* the low w decimal digits of n, most significant first *)
Fixpoint fixed (w : nat) (n : Z) : list Z :=
  match w with O => [] | S k => fixed k (n / 10) ++ [48 + n mod 10] end.
Fixpoint ndigits (fuel : nat) (n : Z) : nat :=
  match fuel with O => 1%nat | S k => if n <? 10 then 1%nat else S (ndigits k (n / 10)) end.
(* snprintf %0Nd for a non-negative int (at most ten digits) *)
Definition fmt (w : nat) (n : Z) : list Z := fixed (Nat.max w (ndigits 10 n)) n.

(* datetime.cpp:118-140.  The buffer of 30 bytes is never exceeded (29 bytes at most); the
   stores of NUL cut the text at a fixed offset. *)
Definition datetime_to_str (d : Z) (precision_len : Z) : list Z :=
  let f := unpack d in
  let buf := fmt 4 (f_year f) ++ [45] ++ fmt 2 (f_month f) ++ [45] ++ fmt 2 (f_day f) ++ [32] ++
             fmt 2 (f_hour f) ++ [58] ++ fmt 2 (f_minute f) ++ [58] ++ fmt 2 (f_second f) ++ [46] ++
             fmt 6 (f_micro f) in
  if (0 <? precision_len) && (precision_len <=? 6) then firstn (Z.to_nat (20 + precision_len)) buf
  else if (precision_len =? 0) || (f_micro f =? 0) then firstn 19 buf
  else firstn 26 buf.

(* datetime.h:67-75 *)
Definition date_to_str (d : Z) : list Z :=
  let year_month := Z.land (Z.shiftr d 5) 0x1FFFF in
  fmt 4 (Z.quot year_month 13) ++ [45] ++ fmt 2 (Z.rem year_month 13) ++ [45] ++ fmt 2 (Z.land d 0x1F).

(* datetime.cpp:442-456 *)
Definition time_to_str (t : Z) : list Z :=
  let '(hour, min, sec, minus) := unpack_time t in
  (if minus then [45] else []) ++ fmt 2 hour ++ [58] ++ fmt 2 min ++ [58] ++ fmt 2 sec.

(* ---------- scanning ---------- *)

Fixpoint skip_space (s : list Z) : list Z :=
  match s with c :: s' => if is_space c then skip_space s' else s | [] => [] end.
(* at most w digits: (how many, value, rest) *)
Fixpoint take_digits (w : nat) (acc : Z) (s : list Z) : nat * Z * list Z :=
  match w, s with
  | S k, c :: s' => if is_digit c then let '(n, v, r) := take_digits k (acc * 10 + (c - 48)) s' in (S n, v, r)
                    else (O, acc, s)
  | _, _ => (O, acc, s)
  end.
(* an integer conversion of width w: white space, optional sign (counted in the width), digits *)
Definition scan_int (w : nat) (s : list Z) : option (Z * list Z) :=
  let s := skip_space s in
  let '(neg, w, s) :=
    match w, s with
    | S k, c :: s' => if c =? 45 then (true, k, s') else if c =? 43 then (false, k, s') else (false, w, s)
    | _, _ => (false, w, s)
    end in
  let '(n, v, r) := take_digits w 0 s in
  match n with O => None | S _ => Some (if neg then - v else v, r) end.
Fixpoint skip_class (s : list Z) : list Z :=
  match s with c :: s' => if is_alnum_lower c then s else skip_class s' | [] => [] end.

(* The directives used: an unsigned long of width N; %*[^0-9a-z]; a literal; white space;
   %d and %u (with or without width) stored into an int *)
Inductive dir := DUlong (w : nat) | DSkip | DLit (c : Z) | DWs | DInt (w : nat) | DUint (w : nat).

(* sscanf stops at the first directive that fails; the values stored so far are returned.
   %lu of a negative number stores it modulo 2^64; %d and %u saturate at the range of
   (unsigned) long and keep the low 32 bits. *)
Fixpoint sscanf (ds : list dir) (s : list Z) : list Z :=
  match ds with
  | [] => []
  | DUlong w :: ds' => match scan_int w s with Some (v, r) => u64 v :: sscanf ds' r | None => [] end
  | DInt w :: ds' => match scan_int w s with
                     | Some (v, r) => i32 (Z.max (- 2 ^ 63) (Z.min v (2 ^ 63 - 1))) :: sscanf ds' r | None => [] end
  | DUint w :: ds' => match scan_int w s with
                      | Some (v, r) => i32 (if Z.abs v <? 2 ^ 64 then v else 2 ^ 64 - 1) :: sscanf ds' r | None => [] end
  | DSkip :: ds' => match s with
                    | c :: _ => if is_alnum_lower c then [] else sscanf ds' (skip_class s)
                    | [] => [] end
  | DLit c :: ds' => match s with x :: s' => if x =? c then sscanf ds' s' else [] | [] => [] end
  | DWs :: ds' => sscanf ds' (skip_space s)
  end.
(* a C string ends at its first NUL *)
Fixpoint cstr (s : list Z) : list Z :=
  match s with c :: s' => if c =? 0 then [] else c :: cstr s' | [] => [] end.

Definition at0 (s : list Z) (i : nat) : Z := nth i s 0.

(* datetime.cpp:174-193: (idx, year_length) of the loop; [has_delim] as set before it *)
Fixpoint scan_loop (has_delim : bool) (buf : list Z) (n : nat) (idx : nat) (delim_cnt : Z) (year_length : Z) : nat * Z :=
  match n with
  | O => (idx, year_length)
  | S n' =>
    let c := at0 buf idx in
    if has_delim then
      let '(delim_cnt, year_length) :=
        if is_digit c then (delim_cnt, year_length)
        else (delim_cnt + 1, if year_length =? -1 then Z.of_nat idx else year_length) in
      if (5 <? delim_cnt) && (c =? 46) then (idx, year_length)
      else scan_loop has_delim buf n' (S idx) delim_cnt year_length
    else if c =? 46 then (idx, year_length)
    else scan_loop has_delim buf n' (S idx) delim_cnt year_length
  end.
(* datetime.cpp:195-201: pad the fraction with zeros, from i = idx + 1, k more positions *)
Fixpoint pad_loop (k : nat) (i : nat) (buf : list Z) : list Z :=
  match k with
  | O => buf
  | S k' => if (i <? 26)%nat
            then pad_loop k' (S i) (if is_digit (at0 buf i) then buf else firstn i buf ++ 48 :: skipn (S i) buf)
            else buf
  end.

Definition DELIM_FORMAT : list dir :=
  [DUlong 4; DSkip; DUlong 2; DSkip; DUlong 2; DSkip; DUlong 2; DSkip; DUlong 2; DSkip; DUlong 2; DLit 46; DUlong 6].
Definition FMT6 : list dir := [DUlong 2; DUlong 2; DUlong 2].
Definition FMT8 : list dir := [DUlong 4; DUlong 2; DUlong 2].
Definition FMT12 : list dir := [DUlong 2; DUlong 2; DUlong 2; DUlong 2; DUlong 2; DUlong 2; DLit 46; DUlong 6].
Definition FMT13 : list dir := [DUlong 2; DUlong 2; DUlong 2; DUlong 2; DUlong 2; DUlong 2].
Definition FMT14 : list dir := [DUlong 4; DUlong 2; DUlong 2; DUlong 2; DUlong 2; DUlong 2; DLit 46; DUlong 6].

(* datetime.cpp:236-266: from the scanned values (missing ones are 0) to the result *)
Definition finish (year_length : Z) (is_full : bool) (vs : list Z) : Z * bool :=
  let year := at0 vs 0 in
  let year := if year_length =? 2 then
                (if (70 <=? year) && (year <? 100) then year + 1900
                 else if (year <? 70) && (0 <? year) then year + 2000 else year)
              else year in
  if 12 <? at0 vs 1 then (0, false)
  else if 31 <? at0 vs 2 then (0, false)
  else if (23 <? at0 vs 3) || (59 <? at0 vs 4) || (59 <? at0 vs 5) then (0, false)
  else (pack (mk_dtf year (at0 vs 1) (at0 vs 2) (at0 vs 3) (at0 vs 4) (at0 vs 5) (at0 vs 6)), is_full).

(* datetime.cpp:165-266: the buffer of 27 bytes, already filled *)
Definition parse_buf (buf : list Z) (len : nat) : Z * bool :=
  let has_delim := negb (is_digit (at0 buf 2) && is_digit (at0 buf 4)) in
  let has_delim := if at0 buf 3 =? 45 then true else has_delim in
  let '(idx, year_length) := scan_loop has_delim buf len 0 0 (-1) in
  let buf := if (idx <? len)%nat then pad_loop 6 (S idx) buf else buf in
  let s := cstr buf in
  if has_delim then finish year_length true (sscanf DELIM_FORMAT s)
  else if (idx <=? 6)%nat then finish 2 false (sscanf FMT6 s)
  else if (idx =? 8)%nat then finish year_length false (sscanf FMT8 s)
  else if (idx =? 12)%nat then finish 2 true (sscanf FMT12 s)
  else if (idx <=? 13)%nat then finish 2 true (sscanf FMT13 s)
  else finish year_length true (sscanf FMT14 s).

(* datetime.cpp:157-159; None: the memory ends before a byte that is not a space *)
Fixpoint skip_blanks (mem : list Z) : option (list Z) :=
  match mem with [] => None | c :: m' => if c =? 32 then skip_blanks m' else Some mem end.

(* datetime.cpp:149-266: value and *is_full_datetime (false when not assigned).  [length] is
   the length argument: it is not reduced by the blanks skipped (160-163). *)
Definition str_to_datetime (mem : list Z) (length : nat) : option (Z * bool) :=
  match skip_blanks mem with
  | None => None
  | Some p =>
    let len := Nat.min length 26 in
    if (List.length p <? len)%nat then None
    else Some (parse_buf (firstn len p ++ repeat 0 (27 - len)) len)
  end.

(* strtoll(s, NULL, 10) on a string of at most 20 bytes *)
Definition strtoll (s : list Z) : Z :=
  match scan_int (length s) s with Some (v, _) => Z.max (- 2 ^ 63) (Z.min v (2 ^ 63 - 1)) | None => 0 end.

(* datetime.cpp:496-510: (idx, has_blank, has_delim) *)
Fixpoint time_loop (s : list Z) (n : nat) (idx : nat) (has_blank has_delim : bool) : nat * bool * bool :=
  match n with
  | O => (idx, has_blank, has_delim)
  | S n' =>
    let c := at0 s idx in
    let has_blank := if c =? 32 then true else has_blank in
    let has_delim := if (c =? 32) || (c =? 58) then true else has_delim in
    if c =? 46 then (idx, has_blank, has_delim) else time_loop s n' (S idx) has_blank has_delim
  end.
Fixpoint drop_blanks (s : list Z) : list Z :=
  match s with c :: s' => if c =? 32 then drop_blanks s' else s | [] => [] end.

(* datetime.cpp:473-559 on a NUL-terminated string without embedded NUL; [s] excludes the NUL *)
Definition str_to_time (s : list Z) : option Z :=
  let s := drop_blanks s in
  let '(minus, s) := match s with c :: s' => if c =? 45 then (true, s') else (false, s) | [] => (false, s) end in
  let len := Nat.min (length s) 20 in
  let '(idx, has_blank, has_delim) := time_loop s len 0 false false in
  match (if (12 <=? idx)%nat then
           match str_to_datetime (s ++ [0]) (length s) with
           | None => Some None
           | Some (d, true) => Some (Some (datetime_to_time d))
           | Some (_, false) => None
           end
         else None) with
  | Some r => r
  | None =>
    let '(day, hour, minute, second) :=
      if has_blank then
        let vs := sscanf [DInt 100; DWs; DUint 100; DLit 58; DUint 2; DLit 58; DUint 2] s in
        (at0 vs 0, at0 vs 1, at0 vs 2, at0 vs 3)
      else if has_delim then
        let vs := sscanf [DInt 100; DLit 58; DUint 2; DLit 58; DUint 2] s in
        (0, at0 vs 0, at0 vs 1, at0 vs 2)
      else if (4 <=? idx)%nat then
        (0, i32 (strtoll (firstn (idx - 4) s)), i32 (strtoll (firstn 2 (skipn (idx - 4) s))),
         i32 (strtoll (firstn 2 (skipn (idx - 2) s))))
      else if (2 <=? idx)%nat then
        (0, 0, i32 (strtoll (firstn (idx - 2) s)), i32 (strtoll (firstn 2 (skipn (idx - 2) s))))
      else (0, 0, 0, i32 (strtoll (firstn idx s))) in
    Some (if (day <? 0) || (hour <? 0) || (minute <? 0) || (59 <? minute) || (second <? 0) || (59 <? second) then 0
          else pack_time (i32 (hour + i32 (day * 24))) minute second minus)
  end.

(* datetime.cpp:805-846 *)
Definition is_valid_date (s : list Z) (has_hour : bool) : bool :=
  if negb (Nat.eqb (length s) (if has_hour then 10 else 8)) then false
  else if negb (forallb is_digit (firstn 8 s)) then false
  else
    let num t := snd (fst (take_digits 4 0 t)) in
    let year := num (firstn 4 s) in
    let mon := num (firstn 2 (skipn 4 s)) in
    let mday := num (firstn 2 (skipn 6 s)) in
    if (mon <? 1) || (12 <? mon) then false
    else
      let mx := nth (Z.to_nat (mon - 1)) days_in_month 0 in
      let mx := if (mon =? 2) && is_leap year then mx + 1 else mx in
      if (mday <? 1) || (mx <? mday) then false
      else if has_hour then
        if negb (forallb is_digit (skipn 8 s)) then false
        else let hour := num (firstn 2 (skipn 8 s)) in negb ((hour <? 0) || (23 <? hour))
      else true.
