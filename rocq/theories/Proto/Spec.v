(* The MySQL client/server protocol, as the protocol documents describe it
   (dev.mysql.com/doc/internals: length-encoded integers and strings, packets, text and binary
   result rows, COM_STMT_EXECUTE).  Written from the side of the client, without reference to
   the server's code.  A byte is a number 0..255. *)
From Coq Require Import ZArith List Bool.
From Verif Require Import Common.Bytes.
Import ListNotations.
Local Open Scope Z_scope.

Definition take (n : nat) (s : list Z) : option (list Z * list Z) :=
  if (n <=? length s)%nat then Some (firstn n s, skipn n s) else None.

(* little-endian unsigned integer of n bytes *)
Definition fixed_int (n : nat) (s : list Z) : option (Z * list Z) :=
  match take n s with Some (a, t) => Some (le_val a, t) | None => None end.

(* length-encoded integer; 0xfb stands for NULL *)
Definition lenenc_int (s : list Z) : option (option Z * list Z) :=
  let some r := match r with Some (v, t) => Some (Some v, t) | None => None end in
  match s with
  | [] => None
  | b :: t =>
      if b <=? 250 then Some (Some b, t)
      else if b =? 251 then Some (None, t)
      else if b =? 252 then some (fixed_int 2 t)
      else if b =? 253 then some (fixed_int 3 t)
      else if b =? 254 then some (fixed_int 8 t)
      else None
  end.

(* length-encoded string or NULL *)
Definition lenenc_str (s : list Z) : option (option (list Z) * list Z) :=
  match lenenc_int s with
  | Some (Some n, t) => match take (Z.to_nat n) t with Some (a, t') => Some (Some a, t') | None => None end
  | Some (None, t) => Some (None, t)
  | None => None
  end.

(* a message: packets of a 3-byte length, a sequence number and a payload; a payload of
   2^24-1 bytes is continued by the next packet, whose sequence number is the next modulo 256.
   Result: the payload, the last sequence number and what follows. *)
Fixpoint message (fuel : nat) (seq : Z) (s : list Z) : option (list Z * Z * list Z) :=
  match fuel with
  | O => None
  | S f =>
      match fixed_int 3 s with
      | None => None
      | Some (n, t) =>
          match t with
          | [] => None
          | q :: t' =>
              if negb (q =? seq mod 256) then None else
              match take (Z.to_nat n) t' with
              | None => None
              | Some (p, r) =>
                  if n =? 0xffffff then
                    match message f (seq + 1) r with
                    | Some (p', q', r') => Some (p ++ p', q', r')
                    | None => None
                    end
                  else Some (p, seq, r)
              end
          end
      end
  end.

(* fuel never runs out: a packet has at least four bytes *)
Definition read_message (seq : Z) (s : list Z) : option (list Z * Z * list Z) := message (S (length s)) seq s.

(* a message as a conforming sender writes it *)
Fixpoint send (fuel : nat) (seq : Z) (p : list Z) : list Z :=
  match fuel with
  | O => []
  | S f =>
      if (0xffffff <=? Z.of_nat (length p)) then
        le_bytes 3 0xffffff ++ [seq mod 256] ++ firstn (Z.to_nat 0xffffff) p ++
        send f (seq + 1) (skipn (Z.to_nat 0xffffff) p)
      else le_bytes 3 (Z.of_nat (length p)) ++ [seq mod 256] ++ p
  end.
Definition send_message (p : list Z) : list Z := send (S (length p)) 0 p.

(* a text result row: one length-encoded string or NULL per column *)
Fixpoint text_row (n : nat) (s : list Z) : option (list (option (list Z)) * list Z) :=
  match n with
  | O => Some ([], s)
  | S m =>
      match lenenc_str s with
      | Some (c, t) => match text_row m t with Some (cs, r) => Some (c :: cs, r) | None => None end
      | None => None
      end
  end.

(* decimal text of an integer *)
Definition digit (c : Z) : option Z := if (48 <=? c) && (c <=? 57) then Some (c - 48) else None.
Fixpoint dec_digits (acc : Z) (s : list Z) : option Z :=
  match s with
  | [] => Some acc
  | c :: t => match digit c with Some d => dec_digits (acc * 10 + d) t | None => None end
  end.
Definition dec_value (s : list Z) : option Z :=
  match s with
  | [] => None
  | c :: t =>
      if c =? 45 then match t with [] => None | _ => option_map Z.opp (dec_digits 0 t) end
      else dec_digits 0 s
  end.

(* ---- binary protocol ---- *)

(* column and parameter types *)
Inductive mtype :=
| T_TINY | T_SHORT | T_LONG | T_INT24 | T_LONGLONG | T_FLOAT | T_DOUBLE
| T_DATE | T_DATETIME | T_TIMESTAMP | T_TIME | T_STRING | T_BLOB | T_VAR_STRING | T_NULL.

(* what a client can send or receive in the binary protocol.  [BInt] is an integer of
   either sign when sent, and the unsigned reading of the bytes when received; FLOAT and DOUBLE are given by their bits. *)
Inductive bval :=
| BNull
| BInt (v : Z)
| BStr (s : list Z)
| BDate (year month day hour minute second micro : Z)
| BTime (neg : bool) (days hour minute second micro : Z).

Definition int_width (t : mtype) : option nat :=
  match t with
  | T_TINY => Some 1%nat | T_SHORT => Some 2%nat
  | T_LONG | T_INT24 | T_FLOAT => Some 4%nat
  | T_LONGLONG | T_DOUBLE => Some 8%nat
  | _ => None
  end.

(* the bytes of a non-NULL value of a type *)
Definition date_bytes (y mo d h mi s us : Z) : list Z :=
  if (y =? 0) && (mo =? 0) && (d =? 0) && (h =? 0) && (mi =? 0) && (s =? 0) && (us =? 0) then [0]
  else if (h =? 0) && (mi =? 0) && (s =? 0) && (us =? 0) then 4 :: le_bytes 2 y ++ [mo; d]
  else if us =? 0 then 7 :: le_bytes 2 y ++ [mo; d; h; mi; s]
  else 11 :: le_bytes 2 y ++ [mo; d; h; mi; s] ++ le_bytes 4 us.
Definition time_bytes (neg : bool) (d h mi s us : Z) : list Z :=
  if (d =? 0) && (h =? 0) && (mi =? 0) && (s =? 0) && (us =? 0) then [0]
  else if us =? 0 then 8 :: (if neg then 1 else 0) :: le_bytes 4 d ++ [h; mi; s]
  else 12 :: (if neg then 1 else 0) :: le_bytes 4 d ++ [h; mi; s] ++ le_bytes 4 us.
Definition lenenc (n : Z) : list Z :=
  if n <=? 250 then [n]
  else if n <? 0x10000 then 252 :: le_bytes 2 n
  else if n <? 0x1000000 then 253 :: le_bytes 3 n
  else 254 :: le_bytes 8 n.

Definition value_bytes (t : mtype) (v : bval) : list Z :=
  match v with
  | BNull => []
  | BInt z => match int_width t with Some w => le_bytes w z | None => [] end
  | BStr s => lenenc (Z.of_nat (length s)) ++ s
  | BDate y mo d h mi s us => date_bytes y mo d h mi s us
  | BTime neg d h mi s us => time_bytes neg d h mi s us
  end.

(* reading a value *)
Definition read_date (s : list Z) : option (bval * list Z) :=
  match s with
  | [] => None
  | n :: t =>
      match take (Z.to_nat n) t with
      | None => None
      | Some (b, r) =>
          let at_ i := nth i b 0 in
          let year := le_val (firstn 2 b) in
          if n =? 0 then Some (BDate 0 0 0 0 0 0 0, r)
          else if n =? 4 then Some (BDate year (at_ 2%nat) (at_ 3%nat) 0 0 0 0, r)
          else if n =? 7 then Some (BDate year (at_ 2%nat) (at_ 3%nat) (at_ 4%nat) (at_ 5%nat) (at_ 6%nat) 0, r)
          else if n =? 11 then
            Some (BDate year (at_ 2%nat) (at_ 3%nat) (at_ 4%nat) (at_ 5%nat) (at_ 6%nat) (le_val (skipn 7 b)), r)
          else None
      end
  end.
Definition read_time (s : list Z) : option (bval * list Z) :=
  match s with
  | [] => None
  | n :: t =>
      match take (Z.to_nat n) t with
      | None => None
      | Some (b, r) =>
          let at_ i := nth i b 0 in
          let neg := negb (at_ 0%nat =? 0) in
          let days := le_val (firstn 4 (skipn 1 b)) in
          if n =? 0 then Some (BTime false 0 0 0 0 0, r)
          else if n =? 8 then Some (BTime neg days (at_ 5%nat) (at_ 6%nat) (at_ 7%nat) 0, r)
          else if n =? 12 then
            Some (BTime neg days (at_ 5%nat) (at_ 6%nat) (at_ 7%nat) (le_val (skipn 8 b)), r)
          else None
      end
  end.
Definition read_value (t : mtype) (s : list Z) : option (bval * list Z) :=
  match t with
  | T_STRING | T_BLOB | T_VAR_STRING =>
      match lenenc_str s with Some (Some x, r) => Some (BStr x, r) | _ => None end
  | T_DATE | T_DATETIME | T_TIMESTAMP => read_date s
  | T_TIME => read_time s
  | T_NULL => None
  | _ => match int_width t with
         | Some w => match fixed_int w s with Some (v, r) => Some (BInt v, r) | None => None end
         | None => None
         end
  end.

(* bit i of a bitmap, least significant bit of the first byte first *)
Definition bit_of (map : list Z) (i : nat) : bool := Z.testbit (nth (i / 8) map 0) (Z.of_nat (i mod 8)).

Fixpoint read_columns (nulls : list Z) (i : nat) (ts : list mtype) (s : list Z) : option (list bval * list Z) :=
  match ts with
  | [] => Some ([], s)
  | t :: ts' =>
      if bit_of nulls i then
        match read_columns nulls (S i) ts' s with Some (vs, r) => Some (BNull :: vs, r) | None => None end
      else
        match read_value t s with
        | None => None
        | Some (v, s') =>
            match read_columns nulls (S i) ts' s' with Some (vs, r) => Some (v :: vs, r) | None => None end
        end
  end.

(* a binary result row: 0x00, NULL bitmap of (n+9)/8 bytes whose bits start at 2, values *)
Definition binary_row (ts : list mtype) (s : list Z) : option (list bval * list Z) :=
  match s with
  | 0 :: t =>
      match take ((length ts + 9) / 8) t with
      | Some (nulls, r) => read_columns nulls 2 ts r
      | None => None
      end
  | _ => None
  end.

(* COM_STMT_EXECUTE from the parameters on: NULL bitmap (bits from 0), 1, types, values *)
Definition mtype_code (t : mtype) : Z :=
  match t with
  | T_TINY => 1 | T_SHORT => 2 | T_LONG => 3 | T_FLOAT => 4 | T_DOUBLE => 5 | T_NULL => 6
  | T_TIMESTAMP => 7 | T_LONGLONG => 8 | T_INT24 => 9 | T_DATE => 10 | T_TIME => 11
  | T_DATETIME => 12 | T_BLOB => 252 | T_VAR_STRING => 253 | T_STRING => 254
  end.
Definition is_bnull (v : bval) : bool := match v with BNull => true | _ => false end.
(* the byte holding the flags of up to eight values *)
Fixpoint flag_byte (fs : list bool) : Z :=
  match fs with [] => 0 | b :: t => (if b then 1 else 0) + 2 * flag_byte t end.
Fixpoint bitmap (fuel : nat) (fs : list bool) : list Z :=
  match fuel with
  | O => []
  | S f => match fs with [] => [] | _ => flag_byte (firstn 8 fs) :: bitmap f (skipn 8 fs) end
  end.
Definition type_bytes (p : mtype * bool * bval) : list Z :=
  let '(t, u, _) := p in [mtype_code t; if u : bool then 128 else 0].
Definition params_bytes (send_types : bool) (ps : list (mtype * bool * bval)) : list Z :=
  bitmap (length ps) (map (fun p => is_bnull (snd p)) ps) ++
  (if send_types then [1] ++ concat (map type_bytes ps) else [0]) ++
  concat (map (fun p => value_bytes (fst (fst p)) (snd p)) ps).
(* command, statement id, flags 0, iteration count 1, parameters; the types are sent when they
   are first bound or have changed *)
Definition execute_bytes (stmt : Z) (send_types : bool) (ps : list (mtype * bool * bval)) : list Z :=
  [23] ++ le_bytes 4 stmt ++ [0] ++ le_bytes 4 1 ++ match ps with [] => [] | _ => params_bytes send_types ps end.

(* HandshakeResponse: capabilities, maximal packet size, character set, 23 filler bytes, user,
   response to the challenge, optionally the database *)
Definition login_bytes (caps : Z) (fixed : list Z) (user scramble db : list Z) : list Z :=
  le_bytes 4 caps ++ fixed ++ user ++ [0] ++ [20] ++ scramble ++ (if Z.testbit caps 3 then db ++ [0] else []).
