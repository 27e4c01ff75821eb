(* Model of the index-key codec: include/common/key_encoder.h,
   include/common/mut_table_key.h, include/common/table_key.h,
   src/common/table_key.cpp, src/common/table_record.cpp.

   Machine words are Z; an unsigned word of n bits is a Z in [0,2^n).
   The host byte order is the parameter [big] (true = big-endian), which is what
   KeyEncoder::is_big_endian (key_encoder.h:29-33) tests. *)
From Verif.Common Require Export Bytes.
Local Open Scope Z_scope.

(* ---------- machine words ---------- *)

(* static_cast<uintN_t>(x): reduction modulo 2^n *)
Definition to_unsigned (n : Z) (x : Z) : Z := x mod 2 ^ n.
(* static_cast<intN_t>(x): two's complement reading *)
Definition to_signed (n : Z) (x : Z) : Z :=
  let u := x mod 2 ^ n in if u <? 2 ^ (n - 1) then u else u - 2 ^ n.

(* key_encoder.h:20-23 *)
Definition SIGN_MASK_08 : Z := 0x80.
Definition SIGN_MASK_16 : Z := 0x8000.
Definition SIGN_MASK_32 : Z := 0x80000000.
Definition SIGN_MASK_64 : Z := 0x8000000000000000.

(* key_encoder.h:35-41 *)
Definition to_endian_u16 (big : bool) (x : Z) : Z :=
  if big then x
  else Z.lor (Z.shiftl (Z.land x 0x00FF) 8) (Z.shiftr (Z.land x 0xFF00) 8).

(* key_encoder.h:43-52 *)
Definition to_endian_u32 (big : bool) (x : Z) : Z :=
  if big then x
  else Z.lor (Z.lor (Z.lor
         (Z.shiftl (Z.land x 0x000000FF) 24)
         (Z.shiftl (Z.land x 0x0000FF00) 8))
         (Z.shiftr (Z.land x 0x00FF0000) 8))
         (Z.shiftr (Z.land x 0xFF000000) 24).

(* key_encoder.h:54-67 *)
Definition to_endian_u64 (big : bool) (x : Z) : Z :=
  if big then x
  else Z.lor (Z.lor (Z.lor (Z.lor (Z.lor (Z.lor (Z.lor
         (Z.shiftl (Z.land x 0x00000000000000FF) 56)
         (Z.shiftl (Z.land x 0x000000000000FF00) 40))
         (Z.shiftl (Z.land x 0x0000000000FF0000) 24))
         (Z.shiftl (Z.land x 0x00000000FF000000) 8))
         (Z.shiftr (Z.land x 0x000000FF00000000) 8))
         (Z.shiftr (Z.land x 0x0000FF0000000000) 24))
         (Z.shiftr (Z.land x 0x00FF000000000000) 40))
         (Z.shiftr (Z.land x 0xFF00000000000000) 56).

(* key_encoder.h:104-134 *)
Definition encode_i8 (x : Z) : Z := Z.lxor (to_unsigned 8 x) SIGN_MASK_08.
Definition decode_i8 (x : Z) : Z := to_signed 8 (Z.lxor x SIGN_MASK_08).
Definition encode_i16 (x : Z) : Z := Z.lxor (to_unsigned 16 x) SIGN_MASK_16.
Definition decode_i16 (x : Z) : Z := to_signed 16 (Z.lxor x SIGN_MASK_16).
Definition encode_i32 (x : Z) : Z := Z.lxor (to_unsigned 32 x) SIGN_MASK_32.
Definition decode_i32 (x : Z) : Z := to_signed 32 (Z.lxor x SIGN_MASK_32).
Definition encode_i64 (x : Z) : Z := Z.lxor (to_unsigned 64 x) SIGN_MASK_64.
Definition decode_i64 (x : Z) : Z := to_signed 64 (Z.lxor x SIGN_MASK_64).

(* The C++ comparison `in >= 0.0` on a float given by its bit pattern with
   [eb] exponent bits and [fb] fraction bits: false for NaN, true for both zeros
   and for every pattern with the sign bit clear. (IEEE-754, key_encoder.h:141,159) *)
Definition float_exp (eb fb x : Z) : Z := (x / 2 ^ fb) mod 2 ^ eb.
Definition float_frac (fb x : Z) : Z := x mod 2 ^ fb.
Definition float_sign (eb fb x : Z) : Z := (x / 2 ^ (eb + fb)) mod 2.
Definition float_isnan (eb fb x : Z) : bool :=
  (float_exp eb fb x =? 2 ^ eb - 1) && negb (float_frac fb x =? 0).
Definition float_ge0 (eb fb x : Z) : bool :=
  negb (float_isnan eb fb x) &&
  ((float_sign eb fb x =? 0) || (x mod 2 ^ (eb + fb) =? 0)).

(* ~res on an n-bit word *)
Definition bnot (n x : Z) : Z := 2 ^ n - 1 - x.

(* key_encoder.h:139-146 *)
Definition encode_f32 (x : Z) : Z :=
  if float_ge0 8 23 x then Z.lor x SIGN_MASK_32 else bnot 32 x.
(* key_encoder.h:148-155 *)
Definition decode_f32 (x : Z) : Z :=
  if Z.shiftr (Z.land x SIGN_MASK_32) 31 >? 0
  then Z.land x (bnot 32 SIGN_MASK_32) else bnot 32 x.
(* key_encoder.h:157-164 *)
Definition encode_f64 (x : Z) : Z :=
  if float_ge0 11 52 x then Z.lor x SIGN_MASK_64 else bnot 64 x.
(* key_encoder.h:166-173 *)
Definition decode_f64 (x : Z) : Z :=
  if Z.shiftr (Z.land x SIGN_MASK_64) 63 >? 0
  then Z.land x (bnot 64 SIGN_MASK_64) else bnot 64 x.

(* ---------- memory image of a word ---------- *)

(* the bytes at &w, sizeof w = n, on a host of the given byte order *)
Definition mem_of (big : bool) (n : nat) (w : Z) : list Z :=
  if big then be_bytes n w else le_bytes n w.
(* reading a word through a reinterpret_cast pointer *)
Definition mem_to (big : bool) (s : list Z) : Z :=
  if big then be_val s else le_val s.

(* ---------- MutTableKey::append_* (mut_table_key.h:59-160, 202-206): bytes appended ---------- *)
Definition app_i8 (big : bool) (v : Z) := mem_of big 1 (encode_i8 v).
Definition app_u8 (big : bool) (v : Z) := mem_of big 1 (to_unsigned 8 v).
Definition app_i16 (big : bool) (v : Z) := mem_of big 2 (to_endian_u16 big (encode_i16 v)).
Definition app_u16 (big : bool) (v : Z) := mem_of big 2 (to_endian_u16 big (to_unsigned 16 v)).
Definition app_i32 (big : bool) (v : Z) := mem_of big 4 (to_endian_u32 big (encode_i32 v)).
Definition app_u32 (big : bool) (v : Z) := mem_of big 4 (to_endian_u32 big (to_unsigned 32 v)).
Definition app_i64 (big : bool) (v : Z) := mem_of big 8 (to_endian_u64 big (encode_i64 v)).
Definition app_u64 (big : bool) (v : Z) := mem_of big 8 (to_endian_u64 big (to_unsigned 64 v)).
(* floats are given by their bit patterns *)
Definition app_float (big : bool) (v : Z) := mem_of big 4 (to_endian_u32 big (encode_f32 v)).
Definition app_double (big : bool) (v : Z) := mem_of big 8 (to_endian_u64 big (encode_f64 v)).
Definition app_string (s : list Z) : list Z := s ++ [0].
Definition app_string_prefix (s : list Z) : list Z := s.
Definition app_boolean (big : bool) (v : Z) := mem_of big 1 (if v =? 0 then 0 else 1).

(* ---------- column types and values ---------- *)

(* pb::PrimitiveType; OTHER_TYPE stands for the types the codec rejects *)
Inductive coltype :=
| BOOL | INT8 | INT16 | INT32 | TIME | INT64 | UINT8 | UINT16 | UINT32 | TIMESTAMP
| DATE | UINT64 | DATETIME | FLOAT | DOUBLE | STRING | OTHER_TYPE.

(* A field of a protobuf row: a number (integers; booleans as 0/1; floats by bit
   pattern) or a byte string. *)
Inductive value := VNum (z : Z) | VStr (s : list Z).

(* table_record.cpp:80-153 TableRecord::encode_field: bytes appended to the key.
   None = return -1.  Not modelled: [clear], which only erases the field from
   the row afterwards.  A value of the wrong kind cannot occur (protobuf types). *)
Definition encode_field (big : bool) (t : coltype) (v : value) (like_prefix : bool)
  : option (list Z) :=
  match t, v with
  | INT8, VNum z => Some (app_i8 big (to_signed 8 z))
  | INT16, VNum z => Some (app_i16 big (to_signed 16 z))
  | (TIME | INT32), VNum z => Some (app_i32 big z)
  | INT64, VNum z => Some (app_i64 big z)
  | UINT8, VNum z => Some (app_u8 big z)
  | UINT16, VNum z => Some (app_u16 big z)
  | (TIMESTAMP | DATE | UINT32), VNum z => Some (app_u32 big z)
  | (DATETIME | UINT64), VNum z => Some (app_u64 big z)
  | FLOAT, VNum z => Some (app_float big z)
  | DOUBLE, VNum z => Some (app_double big z)
  | BOOL, VNum z => Some (app_boolean big z)
  | STRING, VStr s => Some (if like_prefix then app_string_prefix s else app_string s)
  | _, _ => None
  end.

(* What Reflection::GetX returns for an absent field: zero or the empty string. *)
Definition default_value (t : coltype) : value :=
  match t with STRING => VStr [] | _ => VNum 0 end.

(* pb::IndexType (the kinds encode_key distinguishes) *)
Inductive index_type := I_NONE | I_PRIMARY | I_UNIQ | I_KEY | I_FULLTEXT | I_ROLLUP | I_VECTOR.

Record field_info := mk_field { f_type : coltype; f_can_null : bool; f_pb_idx : Z }.
Record index_info := mk_index {
  ix_type : index_type; ix_fields : list field_info; ix_has_nullable : bool;
  ix_pk_fields : list field_info }.

(* schema_factory.cpp:1093,1111-1113: has_nullable is the disjunction of can_null *)
Definition make_index (t : index_type) (fs pk : list field_info) : index_info :=
  mk_index t fs (existsb f_can_null fs) pk.

(* A row: protobuf field index -> value, None = field not set (SQL NULL). *)
Definition record := Z -> option value.

Definition has_null_flag (t : index_type) : bool :=
  match t with I_KEY | I_UNIQ | I_ROLLUP => true | _ => false end.

Inductive eres := EOk (key : list Z) (full : bool) | EErr (code : Z) | EUb.

(* one iteration of the loop table_record.cpp:173-209:
   (bytes appended, new null_flag) *)
Inductive fres := FOk (bytes : list Z) (flag : Z) | FErr (code : Z) | FUb.
Definition encode_key_col (big : bool) (t : index_type) (r : record)
    (info : field_info) (idx : nat) (flag : Z) (last_like : bool) : fres :=
  let enc v := match encode_field big (f_type info) v last_like with
               | Some b => FOk b flag | None => FErr (-1) end in
  match t with
  | I_PRIMARY | I_FULLTEXT =>
      match r (f_pb_idx info) with None => FErr (-2) | Some v => enc v end
  | I_KEY | I_UNIQ | I_ROLLUP =>
      match r (f_pb_idx info) with
      | None => if negb (f_can_null info) then enc (default_value (f_type info))
                else if (7 <? Z.of_nat idx)  (* 7 - idx wraps in uint32: shift too wide *)
                     then FUb
                     else FOk [] (Z.lor flag (Z.shiftl 1 (7 - Z.of_nat idx)))
      | Some v => enc v
      end
  | _ => FErr (-1)
  end.

Fixpoint encode_key_loop (big : bool) (t : index_type) (r : record)
    (fs : list field_info) (idx : nat) (flag : Z) (like_prefix : bool) : fres :=
  match fs with
  | [] => FOk [] flag
  | f :: fs' =>
      let last_like := like_prefix && match fs' with [] => true | _ => false end in
      match encode_key_col big t r f idx flag last_like with
      | FOk b flag' =>
          match encode_key_loop big t r fs' (S idx) flag' like_prefix with
          | FOk bs flag'' => FOk (b ++ bs) flag''
          | e => e
          end
      | e => e
      end
  end.

(* table_record.cpp:156-217 TableRecord::encode_key.  [key] is the content
   already in the MutTableKey.  The flag byte is appended as 0 (line 164) and
   patched at [pos] at the end for I_KEY / I_UNIQ only (lines 210-212).
   On error the caller discards the key. *)
Definition encode_key (big : bool) (ix : index_info) (r : record) (key : list Z)
    (field_cnt : Z) (like_prefix : bool) : eres :=
  match ix_type ix with
  | I_NONE => EErr (-1)
  | t =>
      let n := length (ix_fields ix) in
      (* uint32_t col_cnt = field_cnt == -1 ? size : field_cnt *)
      let col_cnt := if field_cnt =? -1 then Z.of_nat n else field_cnt mod 2 ^ 32 in
      if (Z.of_nat n <? col_cnt) || (ix_has_nullable ix && (8 <? col_cnt)) then EErr (-1)
      else
        match encode_key_loop big t r (firstn (Z.to_nat col_cnt) (ix_fields ix)) 0 0 like_prefix with
        | FOk bs flag =>
            let flagbyte :=
              match t with
              | I_KEY | I_UNIQ => [flag]      (* append_u8(0) then replace_u8(flag,pos) *)
              | I_ROLLUP => [0]               (* append_u8(0), never patched *)
              | _ => []
              end in
            EOk (key ++ flagbyte ++ bs)
                (match t with I_PRIMARY | I_UNIQ => col_cnt =? Z.of_nat n | _ => false end)
        | FErr c => EErr c
        | FUb => EUb
        end
  end.

(* table_record.cpp:220-247 TableRecord::encode_primary_key (field_cnt = -1):
   bytes of the pk fields appended after a secondary index. *)
Fixpoint encode_pk_loop (big : bool) (r : record) (fs : list field_info) : fres :=
  match fs with
  | [] => FOk [] 0
  | f :: fs' =>
      match r (f_pb_idx f) with
      | None => FErr (-2)
      | Some v =>
          match encode_field big (f_type f) v false with
          | None => FErr (-1)
          | Some b => match encode_pk_loop big r fs' with
                      | FOk bs _ => FOk (b ++ bs) 0 | e => e end
          end
      end
  end.
Definition encode_primary_key (big : bool) (ix : index_info) (r : record) (key : list Z) : eres :=
  match ix_type ix with
  | I_KEY | I_UNIQ =>
      match encode_pk_loop big r (ix_pk_fields ix) with
      | FOk bs _ => EOk (key ++ bs) false | FErr c => EErr c | FUb => EUb
      end
  | _ => EErr (-1)
  end.

(* ---------- decoding ---------- *)

(* Outcome of a read: DOob = the C++ reads outside the key's bytes (undefined). *)
Inductive dres (A : Type) := DOk (a : A) | DErr (code : Z) | DOob | DUb.
Arguments DOk {A} a. Arguments DErr {A} code. Arguments DOob {A}. Arguments DUb {A}.

(* n bytes of memory at data_ + pos *)
Definition peek (key : list Z) (pos n : nat) : option (list Z) :=
  if (pos + n <=? length key)%nat then Some (firstn n (skipn pos key)) else None.

(* table_key.h:65-123: the word-reading extract_* functions; None = out of bounds *)
Definition extract_word (big : bool) (key : list Z) (pos n : nat) : option Z :=
  match peek key pos n with Some s => Some (mem_to big s) | None => None end.
Definition omap {A B} (f : A -> B) (o : option A) : option B :=
  match o with Some a => Some (f a) | None => None end.
Definition extract_i8 (big : bool) k p := omap decode_i8 (extract_word big k p 1).
Definition extract_u8 (big : bool) k p := extract_word big k p 1.
Definition extract_i16 (big : bool) k p := omap (fun w => decode_i16 (to_endian_u16 big w)) (extract_word big k p 2).
Definition extract_u16 (big : bool) k p := omap (to_endian_u16 big) (extract_word big k p 2).
Definition extract_i32 (big : bool) k p := omap (fun w => decode_i32 (to_endian_u32 big w)) (extract_word big k p 4).
Definition extract_u32 (big : bool) k p := omap (to_endian_u32 big) (extract_word big k p 4).
Definition extract_i64 (big : bool) k p := omap (fun w => decode_i64 (to_endian_u64 big w)) (extract_word big k p 8).
Definition extract_u64 (big : bool) k p := omap (to_endian_u64 big) (extract_word big k p 8).
Definition extract_float (big : bool) k p := omap (fun w => decode_f32 (to_endian_u32 big w)) (extract_word big k p 4).
Definition extract_double (big : bool) k p := omap (fun w => decode_f64 (to_endian_u64 big w)) (extract_word big k p 8).
Definition extract_boolean (big : bool) k p := omap (fun w => if w =? 0 then 0 else 1) (extract_word big k p 1).

(* strlen-style scan: bytes up to the first NUL; None = ran past the buffer *)
Fixpoint cstring (s : list Z) : option (list Z) :=
  match s with
  | [] => None
  | b :: s' => if b =? 0 then Some [] else omap (cons b) (cstring s')
  end.
(* table_key.h:125-128: out.assign(_data.data_ + pos), a C string *)
Definition extract_string (key : list Z) (pos : nat) : option (list Z) :=
  cstring (skipn pos key).

(* table_key.cpp:179-294 TableKey::decode_field: value and new position.
   decode_field_for_chunk (298-410) performs the same reads. *)
Definition fixed (key : list Z) (pos n : nat) (x : option Z) : dres (value * nat) :=
  if (length key <? pos + n)%nat then DErr (-2)
  else match x with Some z => DOk (VNum z, (pos + n)%nat) | None => DOob end.
Definition decode_field (big : bool) (key : list Z) (t : coltype) (pos : nat)
  : dres (value * nat) :=
  match t with
  | INT8 => fixed key pos 1 (extract_i8 big key pos)
  | INT16 => fixed key pos 2 (extract_i16 big key pos)
  | TIME | INT32 => fixed key pos 4 (extract_i32 big key pos)
  | INT64 => fixed key pos 8 (extract_i64 big key pos)
  | UINT8 => fixed key pos 1 (extract_u8 big key pos)
  | UINT16 => fixed key pos 2 (extract_u16 big key pos)
  | TIMESTAMP | DATE | UINT32 => fixed key pos 4 (extract_u32 big key pos)
  | DATETIME | UINT64 => fixed key pos 8 (extract_u64 big key pos)
  | FLOAT => fixed key pos 4 (extract_float big key pos)
  | DOUBLE => fixed key pos 8 (extract_double big key pos)
  | BOOL => fixed key pos 1 (extract_boolean big key pos)
  | STRING =>
      if (length key <=? pos)%nat then DErr (-2)
      else match extract_string key pos with
           | Some s => DOk (VStr s, (pos + length s + 1)%nat)
           | None => DOob
           end
  | OTHER_TYPE => DErr (-1)
  end.

(* table_key.cpp:413-466 TableKey::skip_field: only the position moves, and
   fixed-width fields are not bounds-checked. *)
Definition skip_field (key : list Z) (t : coltype) (pos : nat) : dres nat :=
  match t with
  | INT8 | UINT8 | BOOL => DOk (pos + 1)%nat
  | INT16 | UINT16 => DOk (pos + 2)%nat
  | TIME | INT32 | TIMESTAMP | DATE | UINT32 | FLOAT => DOk (pos + 4)%nat
  | INT64 | UINT64 | DATETIME | DOUBLE => DOk (pos + 8)%nat
  | STRING =>
      if (length key <=? pos)%nat then DErr (-2)
      else match extract_string key pos with
           | Some s => DOk (pos + length s + 1)%nat
           | None => DOob
           end
  | OTHER_TYPE => DErr (-1)
  end.

Definition set_field (r : record) (i : Z) (v : value) : record :=
  fun j => if j =? i then Some v else r j.

(* The null test `(null_flag >> (7 - idx)) & 1` (table_record.cpp:328).  idx is
   uint32, so 7 - idx wraps for idx > 7 and the shift is undefined; [oversh] is
   what the target does with such a shift of null_flag (None = undefined). *)
Definition null_bit (oversh : Z -> option Z) (flag : Z) (idx : nat) : option bool :=
  if 7 <? Z.of_nat idx then omap (fun x => Z.odd x) (oversh flag)
  else Some (Z.odd (Z.shiftr flag (7 - Z.of_nat idx))).

(* table_record.cpp:319-336 *)
Fixpoint decode_key_loop (oversh : Z -> option Z) (big : bool) (key : list Z) (flag : Z)
    (fs : list field_info) (idx : nat) (r : record) (pos : nat) : dres (record * nat) :=
  match fs with
  | [] => DOk (r, pos)
  | f :: fs' =>
      match null_bit oversh flag idx with
      | None => DUb
      | Some isnull =>
          if isnull && f_can_null f
          then decode_key_loop oversh big key flag fs' (S idx) r pos
          else match decode_field big key (f_type f) pos with
               | DOk (v, pos') =>
                   decode_key_loop oversh big key flag fs' (S idx) (set_field r (f_pb_idx f) v) pos'
               | DErr _ => DErr (-1)
               | DOob => DOob
               | DUb => DUb
               end
      end
  end.

(* table_record.cpp:308-338 TableRecord::decode_key *)
Definition decode_key (oversh : Z -> option Z) (big : bool) (ix : index_info)
    (key : list Z) (r : record) (pos : nat) : dres (record * nat) :=
  match ix_type ix with
  | I_NONE => DErr (-1)
  | t =>
      if has_null_flag t
      then match extract_u8 big key pos with
           | None => DOob
           | Some flag => decode_key_loop oversh big key flag (ix_fields ix) 0 r (pos + 1)
           end
      else decode_key_loop oversh big key 0 (ix_fields ix) 0 r pos
  end.

(* table_record.cpp:340-359 TableRecord::decode_primary_key *)
Fixpoint decode_pk_loop (big : bool) (key : list Z) (fs : list field_info)
    (r : record) (pos : nat) : dres (record * nat) :=
  match fs with
  | [] => DOk (r, pos)
  | f :: fs' =>
      match decode_field big key (f_type f) pos with
      | DOk (v, pos') => decode_pk_loop big key fs' (set_field r (f_pb_idx f) v) pos'
      | DErr _ => DErr (-1)
      | DOob => DOob
      | DUb => DUb
      end
  end.
Definition decode_primary_key (big : bool) (ix : index_info) (key : list Z)
    (r : record) (pos : nat) : dres (record * nat) :=
  match ix_type ix with
  | I_KEY | I_UNIQ => decode_pk_loop big key (ix_pk_fields ix) r pos
  | _ => DErr (-1)
  end.

(* table_key.h:22-33 end_key_compare; the C++ int is modelled by its sign *)
Definition end_key_compare (k1 k2 : list Z) : comparison :=
  if (match bcompare k1 k2 with Eq => true | _ => false end) then Eq
  else match k1, k2 with
       | [], _ => Gt
       | _, [] => Lt
       | _, _ => bcompare k1 k2
       end.
