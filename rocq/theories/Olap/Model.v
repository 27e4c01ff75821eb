(* Model of pre-aggregated rows: the RocksDB merge operator
   (src/engine/rocksdb_merge_operator.cpp), integer accumulation
   (include/common/message_helper.h:256-291) and the deltas written for a rollup index
   (src/common/table_record.cpp:249-291, src/engine/transaction.cpp:527-547, 1367-1383).

   A decoded row maps column numbers to values; values of columns that are not integers are
   opaque codes, since the operator only copies them.  Not modelled: the table lookup and its
   60-second cache (merge_operator.cpp:29-58; a missing table returns the existing value), protobuf
   encoding of rows (a row is decoded to what was encoded). *)
From Coq Require Import ZArith List Bool.
Import ListNotations.
Local Open Scope Z_scope.

Definition row := Z -> option Z.
Definition set (r : row) (i : Z) (v : option Z) : row := fun j => if j =? i then v else r j.

(* protobuf C++ type of an integer column: INT8, INT16 and INT32 share int32, and so on
   (schema_factory.cpp, primitive_to_proto_type) *)
Inductive kind := I32 | U32 | I64 | U64.

Definition signed_wrap (w z : Z) : Z := (z + 2 ^ (w - 1)) mod 2 ^ w - 2 ^ (w - 1).
(* Machine addition.  Signed overflow is undefined in C++; it is modelled as wrapping, and
   C37_exact_sum shows when it cannot happen. *)
Definition wrap (k : kind) (z : Z) : Z :=
  match k with
  | I32 => signed_wrap 32 z
  | I64 => signed_wrap 64 z
  | U32 => z mod 2 ^ 32
  | U64 => z mod 2 ^ 64
  end.

(* TableInfo: fields_need_sum and version_field (schema_factory.cpp:973-991): integer columns
   outside the primary key; the flag says that the declared type is INT32 or INT64 *)
Record sum_field := { sf_idx : Z; sf_kind : kind; sf_plain : bool }.
Record table := { t_sums : list sum_field; t_version : option Z }.

(* MessageHelper::add_value (message_helper.h:256-291): an absent field counts as 0 *)
Definition add_value (k : kind) (r : row) (i v : Z) : row :=
  set r i (Some (wrap k ((match r i with Some x => x | None => 0 end) + v))).

(* the loop over fields_need_sum (merge_operator.cpp:126-154) *)
Fixpoint add_sums (fs : list sum_field) (base delta : row) : row :=
  match fs with
  | [] => base
  | f :: fs' =>
      add_sums fs' (match delta (sf_idx f) with
                    | Some v => add_value (sf_kind f) base (sf_idx f) v
                    | None => base
                    end) delta
  end.

(* one operand (merge_operator.cpp:88-155); base_version is the version column of base_record.
   None: the early return.  [t_version] is None for tables without version and for rollup keys. *)
Definition merge_step (t : table) (base delta : row) : option row :=
  match t_version t with
  | None => Some (add_sums (t_sums t) base delta)
  | Some vi =>
      match base vi, delta vi with
      | Some bv, Some v =>
          if (v <=? bv) && negb ((v =? 0) && (bv =? 0)) then Some base
          else Some (add_sums (t_sums t) (set base vi (Some v)) delta)
      | _, _ => None
      end
  end.

Fixpoint merge_ops (t : table) (base : row) (ops : list row) : option row :=
  match ops with
  | [] => Some base
  | o :: ops' => match merge_step t base o with Some b => merge_ops t b ops' | None => None end
  end.

(* FullMergeV2 (merge_operator.cpp:18-160): on an early return the output is the existing value,
   or the first operand if there is none.  None: no value and no operand (RocksDB does not call). *)
Definition full_merge (t : table) (existing : option row) (ops : list row) : option row :=
  match existing, ops with
  | Some b, _ => Some (match merge_ops t b ops with Some r => r | None => b end)
  | None, o :: ops' => Some (match merge_ops t o ops' with Some r => r | None => o end)
  | None, [] => None
  end.

(* the loop of PartialMerge (merge_operator.cpp:236-253) *)
Fixpoint partial_sums (fs : list sum_field) (left right : row) : option row :=
  match fs with
  | [] => Some right
  | f :: fs' =>
      match left (sf_idx f) with
      | Some v => partial_sums fs' left (add_value (sf_kind f) right (sf_idx f) v)
      | None => None
      end
  end.

(* PartialMerge (merge_operator.cpp:162-259) with the flag on; None: operands stay apart *)
Definition partial_merge (t : table) (left right : row) : option row :=
  match t_version t with
  | None => partial_sums (t_sums t) left right
  | Some vi =>
      match left vi, right vi with
      | Some 0, Some 0 => partial_sums (t_sums t) left right
      | _, _ => None
      end
  end.

(* What RocksDB may do to the stored history of one key, a value (if any) below a list of
   operands, oldest first: fold the oldest operands into the value (flush, compaction or read),
   or, with the flag on, combine neighbours. *)
Inductive rewrites (t : table) (flag : bool) : option row * list row -> option row * list row -> Prop :=
| rw_refl s : rewrites t flag s s
| rw_full b o1 o2 v s : full_merge t b o1 = Some v -> rewrites t flag (Some v, o2) s -> rewrites t flag (b, o1 ++ o2) s
| rw_partial b o1 l r m o2 s : flag = true -> partial_merge t l r = Some m ->
    rewrites t flag (b, o1 ++ m :: o2) s -> rewrites t flag (b, o1 ++ l :: r :: o2) s.

(* what a reader gets *)
Definition read (t : table) (s : option row * list row) : option row := full_merge t (fst s) (snd s).

(* ---- rollup deltas ---- *)

Fixpoint find_sum (fs : list sum_field) (i : Z) : option sum_field :=
  match fs with [] => None | f :: fs' => if sf_idx f =? i then Some f else find_sum fs' i end.

(* TableRecord::encode_value_for_rollup (table_record.cpp:249-291): columns to sum keep their
   value (0 if absent), negated for a delete; all others are cleared.  None: a delete needs
   INT32 or INT64 columns. *)
Definition rollup_delta (t : table) (is_delete : bool) (r : row) : option row :=
  if is_delete && existsb (fun f => negb (sf_plain f)) (t_sums t) then None
  else Some (fun i => match find_sum (t_sums t) i with
                      | Some f => let v := match r i with Some x => x | None => 0 end in
                                  Some (if is_delete then wrap (sf_kind f) (- v) else v)
                      | None => None
                      end).
