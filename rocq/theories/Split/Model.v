(* Model of how a region decides which key-value pairs belong to its key range: index layout
   (src/common/schema_factory.cpp:1085-1193), entries written for a row
   (src/engine/transaction.cpp:484-523, 580-603), the range test (transaction.cpp:203-405), the
   TTL prefix of values (transaction.cpp:28-135), the compaction filter
   (include/engine/split_compaction_filter.h), the copy made by a split
   (src/store/region.cpp:6637-6726) and the check made while the new region replays the log
   (region.cpp:3900-3930).

   Columns, rows and their encodings are those of Key/Model.v.  A column is identified by its
   protobuf index, which the schema keeps in one-to-one correspondence with its id. *)
From Verif Require Import Common.Bytes Key.Model.
Local Open Scope Z_scope.

(* ---- index layout ---- *)

(* FieldInfo::size (schema_factory.cpp:714-726, get_num_size, include/common/type_utils.h:282-309) *)
Definition size_of (t : coltype) : Z :=
  match t with
  | BOOL | INT8 | UINT8 => 1
  | INT16 | UINT16 => 2
  | INT32 | UINT32 | DATE | TIMESTAMP | TIME | FLOAT => 4
  | INT64 | UINT64 | DATETIME | DOUBLE => 8
  | STRING | OTHER_TYPE => -1
  end.

(* IndexInfo (include/common/schema_factory.h:288-325), the parts the range test uses *)
Record index := {
  ix : index_info;               (* type, fields, has_nullable, pk_fields *)
  ix_length : Z;
  ix_overlap : bool;
  ix_pk_pos : list (Z * Z);
  ix_global : bool
}.

(* unordered_map::insert keeps the first *)
Fixpoint lookup (m : list (Z * Z)) (id : Z) : option Z :=
  match m with [] => None | (i, p) :: m' => if i =? id then Some p else lookup m' id end.
Definition insert (m : list (Z * Z)) (id p : Z) : list (Z * Z) :=
  match lookup m id with Some _ => m | None => m ++ [(id, p)] end.

(* the loop over the index columns (schema_factory.cpp:1099-1120) *)
Fixpoint layout (fs : list field_info) (length : Z) (id_map : list (Z * Z)) : Z * list (Z * Z) :=
  match fs with
  | [] => (length, id_map)
  | f :: fs' =>
      let id_map' := insert id_map (f_pb_idx f) length in
      let length' := if size_of (f_type f) =? -1 then -1
                     else if negb (length =? -1) then length + size_of (f_type f) else length in
      layout fs' length' id_map'
  end.

(* the loop over the primary key columns (schema_factory.cpp:1149-1170): pk_length, pk_fields,
   pk_pos *)
Fixpoint pk_layout (pk : list field_info) (id_map : list (Z * Z)) (pk_length : Z)
  : Z * list field_info * list (Z * Z) :=
  match pk with
  | [] => (pk_length, [], [])
  | f :: pk' =>
      if size_of (f_type f) =? -1 then (-1, [], [])
      else match lookup id_map (f_pb_idx f) with
           | Some p =>
               let '(l, fs, ps) := pk_layout pk' id_map pk_length in (l, fs, (1, p) :: ps)
           | None =>
               let '(l, fs, ps) := pk_layout pk' id_map (pk_length + size_of (f_type f)) in
               (l, f :: fs, (-1, pk_length) :: ps)
           end
  end.

(* update_index (schema_factory.cpp:1085-1193) for an index of the given type on the columns
   [fs] of a table with primary key columns [pk] *)
Definition update_index (t : index_type) (global : bool) (fs pk : list field_info) : index :=
  let has_nullable := existsb f_can_null fs in
  let '(l0, m0) := layout fs (match t with I_KEY | I_UNIQ => 1 | _ => 0 end) [] in
  let l := if has_nullable then -1 else l0 in
  match t with
  | I_KEY | I_UNIQ =>
      let m := if l =? -1 then [] else m0 in
      let '(pl, pfs, ps) := pk_layout pk m 0 in
      let pfs' := if pl =? -1 then pk else pfs in
      let ps' := if pl =? -1 then [] else ps in
      {| ix := mk_index t fs has_nullable pfs'; ix_length := l;
         ix_overlap := if l =? -1 then false else negb (length pfs' =? length pk)%nat;
         ix_pk_pos := ps'; ix_global := global |}
  | _ => {| ix := mk_index t fs has_nullable []; ix_length := l; ix_overlap := false; ix_pk_pos := [];
            ix_global := global |}
  end.

(* the primary index of a table with key columns [pk]: update_index without pk fields *)
Definition primary_index (pk : list field_info) : index := update_index I_PRIMARY false pk [].

(* ---- entries ---- *)

(* put_secondary (transaction.cpp:497-525) without the region and index prefix: key and value;
   append_index is TableRecord::encode_key with all columns (mut_table_key.h:208-216) *)
Definition secondary_entry (big : bool) (i : index) (r : record) : option (list Z * list Z) :=
  match encode_key big (ix i) r [] (-1) false with
  | EOk k _ =>
      match ix_type (ix i) with
      | I_KEY => match encode_primary_key big (ix i) r k with EOk k' _ => Some (k', []) | _ => None end
      | I_UNIQ => match encode_primary_key big (ix i) r [] with EOk v _ => Some (k, v) | _ => None end
      | _ => None
      end
  | _ => None
  end.

(* ttl_encode and put_kv_without_lock (include/engine/transaction.h:39-42, transaction.cpp:580-603) *)
Definition stored_value (big use_normal_ttl : bool) (ttl_timestamp_us : Z) (v : list Z) : list Z :=
  if use_normal_ttl && (0 <? ttl_timestamp_us) then app_i64 big ttl_timestamp_us ++ v else v.

(* valid_timestamp_us (transaction.h:51-53) *)
Definition valid_timestamp_us (t : Z) : bool := (1608336000000000 <? t) && (t <? 4761936000000000).

(* ttl_decode (transaction.cpp:41-135) for I_KEY and I_UNIQ: what is left of the value; None:
   8 bytes are read from a shorter value.  The checks that only log are left out. *)
Definition ttl_decode (big : bool) (t : index_type) (base_expire_time_us : Z) (value : list Z) : option (list Z) :=
  if base_expire_time_us =? 0 then
    (if (length value <? 8)%nat then None else Some (skipn 8 value))
  else if (length value <? 8)%nat then Some value
  else match extract_i64 big value 0 with
       | None => None
       | Some time =>
           if negb (valid_timestamp_us time) then Some value
           else match t with
                | I_KEY => if (length value =? 8)%nat then Some (skipn 8 value) else Some value
                | I_UNIQ => Some (skipn 8 value)
                | _ => Some value
                end
       end.

(* ---- the range test ---- *)

Inductive fit := Fits (b : bool) | Oob.

(* get_full_primary_key (transaction.cpp:203-225): the buffer; None: memcpy reads outside a
   slice.  [fields]: pk_index.fields. *)
Fixpoint get_full_primary_key (index_bytes pk_bytes : list Z) (pos : list (Z * Z)) (fields : list field_info)
  : option (list Z) :=
  match pos, fields with
  | [], _ => Some []
  | (w, p) :: pos', f :: fields' =>
      let src := if w =? 1 then index_bytes else pk_bytes in
      match peek src (Z.to_nat p) (Z.to_nat (size_of (f_type f))) with
      | Some b => match get_full_primary_key index_bytes pk_bytes pos' fields' with
                  | Some bs => Some (b ++ bs) | None => None end
      | None => None
      end
  | _ :: _, [] => None
  end.

(* the comparisons at the end of each branch: ret1 < 0 -> false; ret2 = -1 unless an end is
   given (transaction.cpp:290-291, 324-333 and alike, 401-405) *)
Definition in_bounds (k : list Z) (start end_ : option (list Z)) : bool :=
  match start with
  | Some s => match bcompare k s with Lt => false | _ => true end
  | None => true
  end &&
  match end_ with
  | Some [] | None => true
  | Some e => match bcompare k e with Lt => true | _ => false end
  end.

(* skipping the columns of a variable-length index (transaction.cpp:365-385) *)
Fixpoint skip_columns (oversh : Z -> option Z) (key : list Z) (null_flag : Z) (fs : list field_info) (idx pos : nat)
  : dres nat :=
  match fs with
  | [] => DOk pos
  | f :: fs' =>
      match null_bit oversh null_flag idx with
      | None => DUb
      | Some bit =>
          if bit && f_can_null f then skip_columns oversh key null_flag fs' (S idx) pos
          else match f_type f with
               | STRING => match cstring (skipn pos key) with
                           | Some s => skip_columns oversh key null_flag fs' (S idx) (pos + length s + 1)
                           | None => DOob
                           end
               | t => skip_columns oversh key null_flag fs' (S idx) (pos + Z.to_nat (size_of t))
               end
      end
  end.

(* fits_region_range (transaction.cpp:284-405) *)
Definition fits_region_range (oversh : Z -> option Z) (big : bool) (key value : list Z)
    (start end_ : option (list Z)) (pk_index index_info : index) : fit :=
  match start, end_ with
  | None, None => Fits true
  | _, _ =>
      let overlapping := (0 <? ix_length pk_index) && (0 <? ix_length index_info) && ix_overlap index_info in
      let rebuilt index_bytes pk_bytes :=
        match get_full_primary_key index_bytes pk_bytes (ix_pk_pos index_info) (ix_fields (ix pk_index)) with
        | Some k => Fits (in_bounds k start end_)
        | None => Oob
        end in
      match ix_type (ix index_info), ix_global index_info with
      | I_PRIMARY, _ | _, true => Fits (in_bounds key start end_)
      | I_UNIQ, _ => if overlapping then rebuilt key value else Fits (in_bounds value start end_)
      | I_KEY, _ =>
          if overlapping then
            if (Z.of_nat (length key) <? ix_length index_info) then Fits false
            else rebuilt key (skipn (Z.to_nat (ix_length index_info)) key)
          else if 0 <? ix_length index_info then
            if (Z.of_nat (length key) <? ix_length index_info) then Fits false
            else Fits (in_bounds (skipn (Z.to_nat (ix_length index_info)) key) start end_)
          else
            match extract_u8 big key 0 with
            | None => Oob
            | Some null_flag =>
                match skip_columns oversh key null_flag (ix_fields (ix index_info)) 0 1 with
                | DOk pos => if (length key <? pos)%nat then Fits false
                             else Fits (in_bounds (skipn pos key) start end_)
                | _ => Oob
                end
            end
      | _, _ => Fits true
      end
  end.

(* ---- who asks ---- *)

(* SplitCompactionFilter::FilterRegionInfo (split_compaction_filter.h:27-34) *)
Record filter_info := { fi_end_key : list Z; fi_use_normal_ttl : bool; fi_base : Z }.

(* SplitCompactionFilter::Filter (split_compaction_filter.h:52-106) on the deepest levels, for a
   key with its 16-byte prefix already taken off; [i], [pk]: get_split_index_info of the index
   and of its primary index.  Some true: the pair is dropped.  None: access out of bounds. *)
Definition filter_drops (oversh : Z -> option Z) (big : bool) (fi : filter_info) (pk i : index) (key value : list Z)
  : option bool :=
  if match fi_end_key fi with [] => true | _ => false end then Some false
  else
    match ix_type (ix i), ix_global i with
    | I_PRIMARY, _ | _, true => Some (match bcompare (fi_end_key fi) key with Gt => false | _ => true end)
    | I_UNIQ, _ | I_KEY, _ =>
        match (if fi_use_normal_ttl fi then ttl_decode big (ix_type (ix i)) (fi_base fi) value else Some value) with
        | None => None
        | Some v =>
            match fits_region_range oversh big key v None (Some (fi_end_key fi)) pk i with
            | Fits b => Some (negb b)
            | Oob => None
            end
        end
    | _, _ => Some false
    end.

(* set_filter_region_info (split_compaction_filter.h:108-120): an entry with the same end key is
   not replaced *)
Definition set_filter_region_info (old : option filter_info) (new : filter_info) : filter_info :=
  match old with
  | Some o => if list_eq_dec Z.eq_dec (fi_end_key o) (fi_end_key new) then o else new
  | None => new
  end.

(* what a split copies into the new region (region.cpp:6655-6711): the scan of a primary (or
   global) index starts at the split key and stops at the end key *)
Definition split_copies (oversh : Z -> option Z) (big use_normal_ttl : bool) (base : Z) (split_key end_key : list Z)
    (pk i : index) (key value : list Z) : option bool :=
  match ix_type (ix i), ix_global i with
  | I_PRIMARY, _ | _, true =>
      Some (match bcompare key split_key with Lt => false | _ => true end &&
            match bcompare key end_key with Lt => true | _ => false end)
  | I_UNIQ, _ | I_KEY, _ =>
      match (if use_normal_ttl then ttl_decode big (ix_type (ix i)) base value else Some value) with
      | None => None
      | Some v =>
          match fits_region_range oversh big key v (Some split_key) (Some end_key) pk i with
          | Fits b => Some b
          | Oob => None
          end
      end
  | _, _ => Some true
  end.

(* check_key_fits_region_range (region.cpp:3900-3930): a logged write the new region repeats *)
Definition replay_takes (oversh : Z -> option Z) (big : bool) (start end_ : list Z) (pk i : index) (key value : list Z)
  : option bool :=
  match ix_type (ix i), ix_global i with
  | I_PRIMARY, _ | _, true =>
      Some (match bcompare key start with Lt => false | _ => true end &&
            (match end_ with [] => true | _ => false end || match bcompare key end_ with Lt => true | _ => false end))
  | I_UNIQ, _ | I_KEY, _ =>
      match fits_region_range oversh big key value (Some start) (Some end_) pk i with
      | Fits b => Some b
      | Oob => None
      end
  | _, _ => Some true
  end.

(* ---- compaction ---- *)

(* a stored pair of a region, with the index it belongs to; [sd_pk] is a ghost: the encoded
   primary key of the row it was written for *)
Record stored := { sd_index : index; sd_key : list Z; sd_value : list Z; sd_pk : list Z }.

(* One RocksDB compaction with the filter: it visits any subset of the pairs and drops a visited
   pair only when Filter answers true (rocksdb::CompactionFilter). *)
Inductive compaction (oversh : Z -> option Z) (big : bool) (fi : filter_info) (pk : index) : list stored -> list stored -> Prop :=
| cp_nil : compaction oversh big fi pk [] []
| cp_keep e l l' : compaction oversh big fi pk l l' -> compaction oversh big fi pk (e :: l) (e :: l')
| cp_drop e l l' : filter_drops oversh big fi pk (sd_index e) (sd_key e) (sd_value e) = Some true ->
    compaction oversh big fi pk l l' -> compaction oversh big fi pk (e :: l) l'.
