(* Model of the MySQL protocol side of the query server: the output buffer
   (src/protocol/data_buffer.cpp), result rows (src/exec/packet_node.cpp,
   src/common/expr_value.cpp), reading requests from a socket
   (src/protocol/state_machine.cpp:694-770, src/protocol/mysql_wrapper.cpp:504-575), prepared
   statement parameters (state_machine.cpp:934-1037, mysql_wrapper.cpp:776-1075) and the login
   check (state_machine.cpp:571-692).

   Buffers are lists of bytes 0..255.  Allocation is not modelled beyond its limit: an append
   fails when the buffer would exceed MAX_ALLOC_BUF_SIZE = 2^31 bytes (data_buffer.cpp:56-80,
   data_buffer.h:22); capacities are powers of two, at most that. *)
From Coq Require Import ZArith List Bool.
From Verif Require Import Common.Bytes Date.Model Proto.Spec.
Import ListNotations.
Local Open Scope Z_scope.

(* ---- DataBuffer ---- *)

Definition buf := list Z.
Definition MAX_ALLOC_BUF_SIZE : Z := 2 ^ 31.

(* byte_array_append_len (src/protocol/data_buffer.cpp:100-115) *)
Definition append (b : buf) (data : list Z) : option buf :=
  if Z.of_nat (length b + length data) <=? MAX_ALLOC_BUF_SIZE then Some (b ++ data) else None.

(* byte_array_insert_len (data_buffer.cpp:83-98) *)
Definition insert_at (b : buf) (data : list Z) (start_pos : nat) : option buf :=
  if Z.of_nat (length b + length data) <=? MAX_ALLOC_BUF_SIZE then
    Some (firstn start_pos b ++ data ++ skipn start_pos b) else None.

(* (x >> (8 * k)) & 0xff *)
Definition byte_at (k : Z) (x : Z) : Z := Z.land (Z.shiftr x (8 * k)) 0xff.

(* the loop for 254 (data_buffer.cpp:286-290) *)
Fixpoint shift_bytes (n : nat) (num : Z) : list Z :=
  match n with O => [] | S m => Z.land num 0xff :: shift_bytes m (Z.shiftr num 8) end.

(* byte_array_append_length_coded_binary (data_buffer.cpp:266-292), the bytes *)
Definition length_coded_binary (num : Z) : list Z :=
  if num <? 251 then [Z.land num 0xff]
  else if num <? 0x10000 then [252; byte_at 0 num; byte_at 1 num]
  else if num <? 0x1000000 then [253; byte_at 0 num; byte_at 1 num; byte_at 2 num]
  else 254 :: shift_bytes 8 num.

(* pack_length_coded_string (data_buffer.cpp:294-320) *)
Definition pack_length_coded_string (b : buf) (str : list Z) (is_null : bool) : option buf :=
  if is_null then append b [0xfb]
  else match str with
       | [] => append b [0]
       | _ =>
           match append b (length_coded_binary (Z.of_nat (length str))) with
           | Some b' => append b' str
           | None => None
           end
       end.

(* ---- text values ---- *)

(* the loop filling digits from the end of the buffer (src/common/common.cpp:260-264,
   299-303); 20 turns cover 64 bits *)
Fixpoint digits (fuel : nat) (number : Z) (acc : list Z) : list Z :=
  match fuel with
  | O => acc
  | S f => if 0 <? number then digits f (Z.quot number 10) (48 + Z.rem number 10 :: acc) else acc
  end.
(* to_string(int64_t) and to_string(uint64_t) (src/common/common.cpp:224-267, 281-306) *)
Definition min_int64_text : list Z := [45;57;50;50;51;51;55;50;48;51;54;56;53;52;55;55;53;56;48;56].
(* -number in 64 bits; the one value it cannot represent (undefined in C++) stays negative *)
Definition neg64 (number : Z) : Z := if number =? - 2 ^ 63 then number else - number.
Definition to_string_int64 (number : Z) : list Z :=
  if number =? 0 then [48]
  else if number =? - 2 ^ 63 then min_int64_text
  else if number <? 0 then 45 :: digits 20 (neg64 number) []
  else digits 20 number [].
Definition to_string_uint64 (number : Z) : list Z :=
  if number =? 0 then [48] else digits 20 number [].

(* a column value as the result writer sees it: NULL; text (STRING and the temporal types,
   whose get_string is in Date/TextModel.v); signed and unsigned integers.  FLOAT, DOUBLE and
   HLL texts are not modelled. *)
Inductive cell := CNull | CText (s : list Z) | CInt (v : Z) | CUint (v : Z).

(* DataBuffer::append_text_value (data_buffer.cpp:117-152) with
   ExprValue::serialize_to_mysql_text_packet (src/common/expr_value.cpp:21-110); growing the
   buffer and retrying is merged into one append *)
Definition append_text_value (b : buf) (c : cell) : option buf :=
  match c with
  | CNull => append b [0xfb]
  | CText s => pack_length_coded_string b s false
  | CInt v => let body := to_string_int64 v in append b (Z.land (Z.of_nat (length body)) 0xff :: body)
  | CUint v => let body := to_string_uint64 v in append b (Z.land (Z.of_nat (length body)) 0xff :: body)
  end.
Fixpoint append_text_values (b : buf) (cs : list cell) : option buf :=
  match cs with
  | [] => Some b
  | c :: cs' => match append_text_value b c with Some b' => append_text_values b' cs' | None => None end
  end.

(* ---- packets ---- *)

(* PACKET_LEN_MAX (include/protocol/mysql_wrapper.h:56) *)
Definition PACKET_LEN_MAX : Z := 0xffffff.

(* overwriting three bytes at a position *)
Definition set3 (b : buf) (pos : nat) (len : Z) : buf :=
  firstn pos b ++ [byte_at 0 len; byte_at 1 len; byte_at 2 len] ++ skipn (pos + 3) b.

(* the header filled in afterwards, cutting a body of 2^24-1 bytes and more into several
   packets (src/exec/packet_node.cpp:1397-1418 and 1481-1502): buffer, packet id *)
Fixpoint cut_packets (fuel : nat) (b : buf) (start_pos : nat) (packet_body_len packet_id : Z) (filler : Z)
  : option (buf * Z) :=
  match fuel with
  | O => None
  | S f =>
      if PACKET_LEN_MAX <=? packet_body_len then
        let b1 := set3 b start_pos PACKET_LEN_MAX in
        let start_pos' := (start_pos + Z.to_nat (PACKET_LEN_MAX + 4))%nat in
        match insert_at b1 [filler; 0; 0; Z.land (packet_id + 1) 0xff] start_pos' with
        | Some b2 => cut_packets f b2 start_pos' (packet_body_len - PACKET_LEN_MAX) (packet_id + 1) filler
        | None => None
        end
      else Some (set3 b start_pos packet_body_len, packet_id)
  end.

(* PacketNode::pack_text_row (src/exec/packet_node.cpp:1361-1420) *)
Definition pack_text_row (b : buf) (packet_id : Z) (cs : list cell) : option (buf * Z) :=
  match append b [1; 0; 0; Z.land (packet_id + 1) 0xff] with
  | None => None
  | Some b1 =>
      match append_text_values b1 cs with
      | None => None
      | Some b2 =>
          let packet_body_len := Z.of_nat (length b2 - length b - 4) in
          cut_packets (S (length b2)) b2 (length b) packet_body_len (packet_id + 1) 1
      end
  end.

(* MysqlWrapper::make_row_packet (src/protocol/mysql_wrapper.cpp:451-502), the body: rows of
   SHOW commands and the like *)
Fixpoint make_row_values (b : buf) (row : list (list Z)) : option buf :=
  match row with
  | [] => Some b
  | s :: row' =>
      match s with
      | [] => match append b [0xfb] with Some b' => make_row_values b' row' | None => None end
      | _ =>
          match append b (length_coded_binary (Z.of_nat (length s))) with
          | Some b1 => match append b1 s with Some b2 => make_row_values b2 row' | None => None end
          | None => None
          end
      end
  end.

(* DataBuffer::network_queue_send_append (data_buffer.cpp:322-349) *)
Definition network_queue_send_append (b : buf) (data : list Z) (packet_id : Z) : option buf :=
  match data with
  | [] => None
  | _ =>
      let len := Z.of_nat (length data) in
      match append b [byte_at 0 len; byte_at 1 len; byte_at 2 len; Z.land packet_id 0xff] with
      | Some b' => append b' data
      | None => None
      end
  end.

(* ---- binary rows ---- *)

(* a value for the binary protocol: NULL, a STRING value, or a number given by the unsigned
   reading of get_numberic (its bits for FLOAT and DOUBLE columns) *)
Inductive bcell := KNull | KStr (s : list Z) | KNum (v : Z).

(* the fields datetime_to_time_struct extracts (src/common/datetime.cpp:375-408); the line
   for the microseconds is commented out in the source *)
Definition datetime_struct (d : Z) : dtf :=
  let year_month := Z.land (Z.shiftr d 46) 0x1FFFF in
  mk_dtf (year_month / 13) (year_month mod 13) (Z.land (Z.shiftr d 41) 0x1F) (Z.land (Z.shiftr d 36) 0x1F)
    (Z.land (Z.shiftr d 30) 0x3F) (Z.land (Z.shiftr d 24) 0x3F) 0.
Definition timestamp_struct (ts : Z) : dtf :=
  let t := localtime_fixed_r ts TZ in
  mk_dtf (tm_year t + 1900) (tm_mon t + 1) (tm_mday t) (tm_hour t) (tm_min t) (tm_sec t) 0.

(* DateTime::datetype_length, timetype_length (include/common/type_utils.h:93-111) *)
Definition datetype_length (f : dtf) : Z :=
  if (f_year f =? 0) && (f_month f =? 0) && (f_day f =? 0) && (f_hour f =? 0) && (f_minute f =? 0)
     && (f_second f =? 0) && (f_micro f =? 0) then 0
  else if (f_hour f =? 0) && (f_minute f =? 0) && (f_second f =? 0) && (f_micro f =? 0) then 4
  else if f_micro f =? 0 then 7
  else 11.
Definition timetype_length (hour minute second micro : Z) : Z :=
  if (hour =? 0) && (minute =? 0) && (second =? 0) && (micro =? 0) then 0
  else if micro =? 0 then 8
  else 12.

(* DataBuffer::datetime_to_buf (data_buffer.cpp:154-214) preceded by the length byte
   (250-259) *)
Definition datetime_bytes (f : dtf) : list Z :=
  let n := datetype_length f in
  n :: (if (n =? 11) || (n =? 7) || (n =? 4) then
          [byte_at 0 (f_year f); byte_at 1 (f_year f); Z.land (f_month f) 0xff; Z.land (f_day f) 0xff] ++
          (if (n =? 11) || (n =? 7) then
             [Z.land (f_hour f) 0xff; Z.land (f_minute f) 0xff; Z.land (f_second f) 0xff] ++
             (if n =? 11 then [byte_at 0 (f_micro f); byte_at 1 (f_micro f); byte_at 2 (f_micro f); byte_at 3 (f_micro f)] else [])
           else [])
        else []).
Definition time_value_bytes (v : Z) : list Z :=
  let '(neg, day, hour, minute, second) := time_to_time_struct (i32 v) in
  let n := timetype_length hour minute second 0 in
  n :: (if (n =? 8) || (n =? 12) then
          [(if neg then 1 else 0); byte_at 0 day; byte_at 1 day; byte_at 2 day; byte_at 3 day;
           Z.land hour 0xff; Z.land minute 0xff; Z.land second 0xff]
        else []).
Definition date_value_bytes (v : Z) : list Z :=
  let date := u32 v in
  let year_month := Z.land (Z.shiftr date 5) 0x1FFFF in
  let year := year_month / 13 in
  [4; byte_at 0 year; byte_at 1 year; Z.land (year_month mod 13) 0xff; Z.land date 0x1F].

(* bytes of an object in memory, little endian *)
Definition mem_bytes (n : nat) (v : Z) : list Z := shift_bytes n v.

(* DataBuffer::append_binary_value (data_buffer.cpp:216-264): bytes of the value; None for a
   type it rejects.  NULLs are handled by the caller here. *)
Definition binary_value (t : mtype) (c : bcell) : option (list Z) :=
  match c with
  | KNull => Some []
  | KStr s => Some (match s with [] => [0] | _ => length_coded_binary (Z.of_nat (length s)) ++ s end)
  | KNum v =>
      match t with
      | T_LONGLONG | T_DOUBLE => Some (mem_bytes 8 v)
      | T_LONG | T_INT24 | T_FLOAT => Some (mem_bytes 4 v)
      | T_SHORT => Some (mem_bytes 2 v)
      | T_TINY => Some (mem_bytes 1 v)
      | T_DATE => Some (date_value_bytes v)
      | T_DATETIME => Some (datetime_bytes (datetime_struct v))
      | T_TIMESTAMP => Some (datetime_bytes (timestamp_struct v))
      | T_TIME => Some (time_value_bytes v)
      | _ => None
      end
  end.

Fixpoint set_nth (i : nat) (f : Z -> Z) (l : list Z) : list Z :=
  match i, l with
  | O, x :: t => f x :: t
  | S j, x :: t => x :: set_nth j f t
  | _, [] => []
  end.
(* null_map[byte] |= 1 << bit (data_buffer.cpp:221-226) *)
Definition set_null (null_map : list Z) (field_idx null_offset : nat) : list Z :=
  set_nth ((field_idx + null_offset) / 8)
          (fun x => Z.lor x (Z.shiftl 1 (Z.of_nat ((field_idx + null_offset) mod 8)))) null_map.

Definition is_knull (c : bcell) : bool := match c with KNull => true | _ => false end.
(* the loop over the columns (src/exec/packet_node.cpp:1448-1472): bitmap, value bytes *)
Fixpoint binary_columns (null_map : list Z) (field_idx : nat) (cols : list (mtype * bcell))
  : option (list Z * list Z) :=
  match cols with
  | [] => Some (null_map, [])
  | (t, c) :: cols' =>
      if is_knull c then binary_columns (set_null null_map field_idx 2) (S field_idx) cols'
      else
        match binary_value t c with
        | None => None
        | Some v =>
            match binary_columns null_map (S field_idx) cols' with
            | Some (m, vs) => Some (m, v ++ vs)
            | None => None
            end
        end
  end.

(* PacketNode::pack_binary_row (packet_node.cpp:1422-1504); the body is appended in one piece
   instead of value by value, with the final bitmap in its place *)
Definition pack_binary_row (b : buf) (packet_id : Z) (cols : list (mtype * bcell)) : option (buf * Z) :=
  let null_bitmap_len := ((length cols + 7 + 2) / 8)%nat in
  match binary_columns (repeat 0 null_bitmap_len) 0 cols with
  | None => None
  | Some (null_map, vs) =>
      match append b ([1; 0; 0; Z.land (packet_id + 1) 0xff] ++ [0] ++ null_map ++ vs) with
      | None => None
      | Some b2 =>
          cut_packets (S (length b2)) b2 (length b) (Z.of_nat (length b2 - length b - 4)) (packet_id + 1) 0
      end
  end.

(* ---- reading a request from the socket ---- *)

Inductive ret := RET_SUCCESS | RET_WAIT_FOR_EVENT | RET_ERROR.

(* what read(2) delivers: each chunk is available to one or more calls; an empty chunk is
   EAGAIN.  A closed connection is not modelled. *)
Definition socket := list (list Z).

Record conn := {
  self_buf : list Z;          (* _data[0 .. _size) *)
  header : list Z;            (* _data[0 .. header_read_len) while a header is being read *)
  packet_read_len : Z;
  current_packet_len : Z;
  packet_len : Z;
  packet_seq : Z;
  has_multi_packet : bool
}.
(* a connection between requests: byte_array_clear, packet_len = 0
   (src/protocol/state_machine.cpp:1644-1651, mysql_wrapper.cpp:627-633) *)
Definition conn_init : conn :=
  {| self_buf := []; header := []; packet_read_len := 0; current_packet_len := 0; packet_len := 0;
     packet_seq := 0; has_multi_packet := false |}.

(* read(fd, .., want): the bytes and what is left; None: EAGAIN *)
Definition sys_read (want : nat) (s : socket) : option (list Z) * socket :=
  match s with
  | [] => (None, [])
  | [] :: s' => (None, s')
  | c :: s' =>
      let got := firstn want c in
      match skipn want c with
      | [] => (Some got, s')
      | rest => (Some got, rest :: s')
      end
  end.

(* the first four bytes of self_buf hold the header being read; the first packet's header
   makes up the first four bytes of _size (mysql_wrapper.cpp:520-524).  Afterwards they are
   zeroed (state_machine.cpp:726). *)
Definition PACKET_HEADER_LEN : nat := 4.

(* _read_packet_header (src/protocol/state_machine.cpp:694-732) with real_read_header
   (src/protocol/mysql_wrapper.cpp:504-541) *)
Definition read_packet_header (c : conn) (s : socket) : ret * conn * socket :=
  let want := (PACKET_HEADER_LEN - length (header c))%nat in
  if negb (Z.of_nat (length (self_buf c) + want) <=? MAX_ALLOC_BUF_SIZE) then (RET_ERROR, c, s) else
  match sys_read want s with
  | (None, s') => (RET_WAIT_FOR_EVENT, c, s')
  | (Some got, s') =>
      let h := header c ++ got in
      let data := h ++ skipn (length h) (self_buf c) in
      if (length got <? want)%nat then
        (RET_WAIT_FOR_EVENT,
         {| self_buf := data; header := h; packet_read_len := packet_read_len c;
            current_packet_len := current_packet_len c; packet_len := packet_len c;
            packet_seq := packet_seq c; has_multi_packet := has_multi_packet c |}, s')
      else
        let n := Z.lor (Z.lor (nth 0 h 0) (Z.shiftl (nth 1 h 0) 8)) (Z.shiftl (nth 2 h 0) 16) in
        (RET_SUCCESS,
         {| self_buf := repeat 0 4 ++ skipn 4 data; header := h; packet_read_len := packet_read_len c;
            current_packet_len := n; packet_len := packet_len c + n; packet_seq := nth 3 h 0;
            has_multi_packet := n =? PACKET_LEN_MAX |}, s')
  end.

(* the body part of one turn of _read_packet (state_machine.cpp:749-766) with real_read
   (mysql_wrapper.cpp:543-575) *)
Definition read_packet_body (c : conn) (s : socket) : ret * conn * socket :=
  let want := current_packet_len c - packet_read_len c in
  let done c := {| self_buf := self_buf c; header := []; packet_read_len := 0;
                   current_packet_len := current_packet_len c; packet_len := packet_len c;
                   packet_seq := packet_seq c; has_multi_packet := has_multi_packet c |} in
  if want <=? 0 then (RET_SUCCESS, done c, s)
  else if negb (Z.of_nat (length (self_buf c)) + want <=? MAX_ALLOC_BUF_SIZE) then (RET_ERROR, c, s)
  else
    match sys_read (Z.to_nat want) s with
    | (None, s') => (RET_WAIT_FOR_EVENT, c, s')
    | (Some got, s') =>
        let c' := {| self_buf := self_buf c ++ got; header := header c;
                     packet_read_len := packet_read_len c + Z.of_nat (length got);
                     current_packet_len := current_packet_len c; packet_len := packet_len c;
                     packet_seq := packet_seq c; has_multi_packet := has_multi_packet c |} in
        if Z.of_nat (length got) <? want then (RET_WAIT_FOR_EVENT, c', s') else (RET_SUCCESS, done c', s')
    end.

(* _read_packet (state_machine.cpp:734-770); [fuel] bounds the packets read in one call *)
Fixpoint read_packet (fuel : nat) (c : conn) (s : socket) : ret * conn * socket :=
  match fuel with
  | O => (RET_WAIT_FOR_EVENT, c, s)
  | S f =>
      let '(r1, c1, s1) := if (length (header c) =? 4)%nat then (RET_SUCCESS, c, s) else read_packet_header c s in
      match r1 with
      | RET_SUCCESS =>
          let '(r2, c2, s2) := read_packet_body c1 s1 in
          match r2 with
          | RET_SUCCESS => if has_multi_packet c2 then read_packet f c2 s2 else (RET_SUCCESS, c2, s2)
          | _ => (r2, c2, s2)
          end
      | _ => (r1, c1, s1)
      end
  end.

(* the event loop calls again while the packet is incomplete and the socket has more *)
Fixpoint read_request (fuel : nat) (c : conn) (s : socket) : ret * conn * socket :=
  match fuel with
  | O => (RET_WAIT_FOR_EVENT, c, s)
  | S f =>
      match read_packet (S (S (length (concat s)))) c s with
      | (RET_WAIT_FOR_EVENT, c', []) => (RET_WAIT_FOR_EVENT, c', [])
      | (RET_WAIT_FOR_EVENT, c', s') => read_request f c' s'
      | r => r
      end
  end.

(* ---- parsing ---- *)

(* result of parsing: a value, an error answer to the client, or an access outside the
   buffer *)
Inductive res (A : Type) := Ok (a : A) | Err | Ub.
Arguments Ok {A} a. Arguments Err {A}. Arguments Ub {A}.
Definition bind {A B} (m : res A) (k : A -> res B) : res B :=
  match m with Ok a => k a | Err => Err | Ub => Ub end.
Local Notation "'do' x <- m ; k" := (bind m (fun x => k)) (at level 100, x binder, right associativity).

(* [data]: the whole buffer, of which the request is the first packet_len bytes; offset < 2^32 *)
Section Parse.
  Variable data : list Z.
  Variable packet_len : nat.

  Definition load (off : nat) : res Z := match nth_error data off with Some b => Ok b | None => Ub end.

  (* protocol_get_char (src/protocol/mysql_wrapper.cpp:129-144) *)
  Definition get_char (off : nat) : res (Z * nat) :=
    if (packet_len <? off + 1)%nat then Err else
    do b <- load off; Ok (b, S off).

  (* protocol_get_length_fixed_int (mysql_wrapper.cpp:146-167) *)
  Fixpoint sum_bytes (n : nat) (off : nat) : res Z :=
    match n with
    | O => Ok 0
    | S m => do b <- load off; do v <- sum_bytes m (S off); Ok (b + 256 * v)
    end.
  Definition get_fixed_int (n : nat) (off : nat) : res (Z * nat) :=
    if (packet_len <? off + n)%nat then Err else
    do v <- sum_bytes n off; Ok (v, (off + n)%nat).

  (* protocol_get_string (mysql_wrapper.cpp:169-208); MAX_STRING_BUF_SIZE = 1024
     (include/session/network_socket.h:37) *)
  Fixpoint scan_nul (fuel off len : nat) : res nat :=
    match fuel with
    | O => Ok len
    | S f =>
        if (off + len <? packet_len)%nat then
          do b <- load (off + len)%nat; if b =? 0 then Ok len else scan_nul f off (S len)
        else Ok len
    end.
  Definition get_string (off : nat) : res (list Z * nat) :=
    do len <- scan_nul packet_len off 0;
    if (packet_len <=? off + len)%nat then Err
    else if (1024 <? len + 1)%nat then Err
    else Ok (firstn len (skipn off data), (off + len + 1)%nat).

  (* protocol_get_length_coded_int (mysql_wrapper.cpp:776-819); None: NULL *)
  Definition get_length_coded_int (off : nat) : res (option Z * nat) :=
    if (packet_len <? off + 1)%nat then Err else
    do b <- load off;
    if 254 <? b then Err
    else if b =? 251 then Ok (None, S off)
    else if b <=? 250 then Ok (Some b, S off)
    else
      let int_length := if b =? 252 then 2%nat else if b =? 253 then 3%nat else 8%nat in
      do r <- get_fixed_int int_length (S off); Ok (Some (fst r), snd r).

  (* the literal a parameter becomes: the value of Literal::get_value
     (include/expr/literal.h:50-57, 105-113, 212-214) *)
  Inductive param :=
  | PNull
  | PStr (s : list Z)
  | PInt (signed : bool) (width : nat) (v : Z)   (* INT8..UINT64: the value after cast_to *)
  | PReal (width : nat) (bits : Z)               (* FLOAT or DOUBLE by its bits *)
  | PDatetime (v : Z)
  | PTime (v : Z).

  (* cast_to of an INT64 holding the unsigned bytes to INT8..UINT64 *)
  Definition as_int (signed : bool) (width : nat) (v : Z) : Z :=
    let m := 2 ^ (8 * Z.of_nat width) in
    let u := v mod m in
    if signed && (m / 2 <=? u) then u - m else u.

  Definition zeros : dtf := mk_dtf 0 0 0 0 0 0 0.
  (* the fields of DATE, DATETIME and TIMESTAMP parameters (mysql_wrapper.cpp:958-1023) *)
  Definition get_date_fields (off : nat) : res (dtf * nat) :=
    do l <- get_fixed_int 1 off;
    let length_ := fst l in
    if (length_ =? 4) || (length_ =? 7) || (length_ =? 11) then
      do y <- get_fixed_int 2 (snd l);
      do mo <- get_fixed_int 1 (snd y);
      do d <- get_fixed_int 1 (snd mo);
      do hms <- (if (length_ =? 7) || (length_ =? 11) then
                   do h <- get_fixed_int 1 (snd d);
                   do mi <- get_fixed_int 1 (snd h);
                   do s <- get_fixed_int 1 (snd mi);
                   Ok (fst h, fst mi, fst s, snd s)
                 else Ok (0, 0, 0, snd d));
      let '(h, mi, s, off1) := hms in
      do us <- (if length_ =? 11 then get_fixed_int 4 off1 else Ok (0, off1));
      Ok (mk_dtf (fst y) (fst mo) (fst d) h mi s (fst us), snd us)
    else if length_ =? 0 then Ok (zeros, snd l)
    else Err.

  (* TIME (mysql_wrapper.cpp:1024-1071).  The sign is read before the length is looked at. *)
  Definition get_time_value (off : nat) : res (Z * nat) :=
    do l <- get_fixed_int 1 off;
    let length_ := fst l in
    do neg <- get_fixed_int 1 (snd l);
    if (length_ =? 8) || (length_ =? 12) then
      do d <- get_fixed_int 4 (snd neg);
      do h <- get_fixed_int 1 (snd d);
      do mi <- get_fixed_int 1 (snd h);
      do s <- get_fixed_int 1 (snd mi);
      do us <- (if length_ =? 12 then get_fixed_int 4 (snd s) else Ok (0, snd s));
      Ok (bin_time_to_datetime (fst d) (fst h) (fst mi) (fst s) (negb (fst neg =? 0)), snd us)
    else if length_ =? 0 then Ok (0, snd neg)
    else Err.

  (* type codes (include/common/type_utils.h:24-56); the others are rejected *)
  Definition param_type (code : Z) : option mtype :=
    if code =? 1 then Some T_TINY else if code =? 2 then Some T_SHORT else if code =? 3 then Some T_LONG
    else if code =? 4 then Some T_FLOAT else if code =? 5 then Some T_DOUBLE else if code =? 6 then Some T_NULL
    else if code =? 7 then Some T_TIMESTAMP else if code =? 8 then Some T_LONGLONG
    else if code =? 9 then Some T_INT24 else if code =? 10 then Some T_DATE
    else if code =? 11 then Some T_TIME else if code =? 12 then Some T_DATETIME
    else if code =? 252 then Some T_BLOB else if code =? 253 then Some T_VAR_STRING
    else if code =? 254 then Some T_STRING else None.

  (* decode_binary_protocol_value (mysql_wrapper.cpp:824-1075) *)
  Definition decode_value (t : option mtype) (is_unsigned : bool) (off : nat) : res (param * nat) :=
    let int_ n := do r <- get_fixed_int n off; Ok (PInt (negb is_unsigned) n (as_int (negb is_unsigned) n (fst r)), snd r) in
    let real_ n := if (packet_len <? off + n)%nat then Err else
                   do v <- sum_bytes n off; Ok (PReal n v, (off + n)%nat) in
    match t with
    | Some T_STRING | Some T_BLOB | Some T_VAR_STRING =>
        do l <- get_length_coded_int off;
        match fst l with
        | None => Err
        | Some n =>
            (* (uint32_t)packet_len < offset + length, in 64 bits *)
            if Z.of_nat packet_len <? (Z.of_nat (snd l) + n) mod 2 ^ 64 then Err
            else if Z.of_nat (length data) <? Z.of_nat (snd l) + n then Ub
            else Ok (PStr (firstn (Z.to_nat n) (skipn (snd l) data)), (snd l + Z.to_nat n)%nat)
        end
    | Some T_TINY => int_ 1%nat
    | Some T_SHORT => int_ 2%nat
    | Some T_LONG | Some T_INT24 => int_ 4%nat
    | Some T_LONGLONG => int_ 8%nat
    | Some T_FLOAT => real_ 4%nat
    | Some T_DOUBLE => real_ 8%nat
    | Some T_DATE | Some T_DATETIME | Some T_TIMESTAMP =>
        do r <- get_date_fields off; Ok (PDatetime (bin_date_to_datetime (fst r)), snd r)
    | Some T_TIME => do r <- get_time_value off; Ok (PTime (fst r), snd r)
    | _ => Err
    end.

  (* the types (src/protocol/state_machine.cpp:990-1003), read without looking at packet_len *)
  Fixpoint get_types (n : nat) (off : nat) : res (list (option mtype * bool)) :=
    match n with
    | O => Ok []
    | S m =>
        do code <- load off;
        do flag <- load (S off);
        do rest <- get_types m (off + 2);
        Ok ((param_type code, flag =? 0x80) :: rest)
    end.

  (* the values (state_machine.cpp:1005-1034); no long data *)
  Fixpoint get_params (bitmap_off idx : nat) (types : list (option mtype * bool)) (off : nat) : res (list param) :=
    match types with
    | [] => Ok []
    | (t, u) :: types' =>
        do nb <- load (bitmap_off + idx / 8)%nat;
        let is_null := negb (Z.land (Z.shiftr nb (Z.of_nat (idx mod 8))) 1 =? 0) in
        do v <- (if is_null then Ok (PNull, off)
                 else match t with Some T_NULL => Ok (PNull, off) | _ => decode_value t u off end);
        do rest <- get_params bitmap_off (S idx) types' (snd v);
        Ok (fst v :: rest)
    end.

  (* _query_read_stmt_execute (state_machine.cpp:934-1037) for a known statement with
     [num_params] placeholders and the types bound before, starting after the command byte:
     statement id, parameters, types now bound *)
  Definition stmt_execute (off num_params : nat) (bound : list (option mtype * bool))
    : res (Z * list param * list (option mtype * bool)) :=
    do id <- get_fixed_int 4 off;
    do flags <- get_char (snd id);
    if negb (fst flags =? 0) then Err else
    do it <- get_fixed_int 4 (snd flags);
    match num_params with
    | O => Ok (fst id, [], bound)
    | _ =>
        let bitmap_off := snd it in
        do nf <- get_char (bitmap_off + (num_params + 7) / 8)%nat;
        do b <- (if fst nf =? 1 then
                   do ts <- get_types num_params (snd nf); Ok (ts, (snd nf + 2 * num_params)%nat)
                 else Ok (bound, snd nf));
        match fst b with
        | [] => Err
        | _ =>
            do vs <- get_params bitmap_off 0 (fst b) (snd b);
            Ok (fst id, vs, fst b)
        end
    end.

  (* ---- login ---- *)

  (* _auth_read (state_machine.cpp:571-692) from the packet on, for a user table giving the
     stored 20-byte scramble; [allowed]: user_info->allow_addr.  The result is the accepted
     user.  RET_ERROR and RET_AUTH_FAILED are one answer here. *)
  Definition auth_read (users : list Z -> option (list Z)) (allowed : list Z -> bool) : res (list Z) :=
    do cap <- get_fixed_int 4 4;
    do cs <- get_char 12;
    do name <- get_string (snd cs + 23)%nat;
    match users (fst name) with
    | None => Err
    | Some scramble =>
        let off := snd name in
        if (packet_len <? off + 1)%nat then Err else
        do len <- load off;
        if negb (len =? 0x14) then Err
        else if (packet_len <? 20 + S off)%nat then Err
        else if negb (if list_eq_dec Z.eq_dec (firstn 20 (skipn (S off) data)) scramble then true else false) then Err
        else if negb (allowed (fst name)) then Err
        else
          (* CLIENT_CONNECT_WITH_DB = 8 *)
          if Z.testbit (fst cap) 3 then do db <- get_string (S off + 20)%nat; Ok (fst name)
          else Ok (fst name)
    end.
End Parse.
