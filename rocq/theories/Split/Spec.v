(* What it means for a key-value pair to belong to a region. *)
From Verif Require Import Common.Bytes Key.Model Key.Spec.
Local Open Scope Z_scope.

(* A region holds the rows whose encoded primary key lies in [start, end); the empty end is
   infinity. *)
Definition in_region (start end_ pk : list Z) : Prop :=
  bcompare pk start <> Lt /\ (end_ = [] \/ bcompare pk end_ = Lt).

(* the encoded primary key of a row: the columns one after the other, NUL-terminated strings *)
Inductive row_key (big : bool) (r : record) : list field_info -> list Z -> Prop :=
| rk_nil : row_key big r [] []
| rk_cons f v b fs k : r (f_pb_idx f) = Some v -> encode_field big (f_type f) v false = Some b ->
    row_key big r fs k -> row_key big r (f :: fs) (b ++ k).

(* How the value of an index entry is stored.  Without TTL: as is.  On a table created with TTL
   (base 0): behind an 8-byte expiry time.  On a table that got TTL later (base > 0: the expiry
   assumed for older entries): entries written since then carry a time in the plausible range,
   older ones do not, and their first 8 bytes must not look like one. *)
Definition plausible_time (t : Z) : Prop := 1608336000000000 < t < 4761936000000000.
Inductive stored_as (big : bool) : bool -> Z -> list Z -> list Z -> Prop :=
| sa_plain base v : stored_as big false base v v
| sa_ttl t v : stored_as big true 0 v (app_i64 big t ++ v)
| sa_online_new base t v : base <> 0 -> plausible_time t -> stored_as big true base v (app_i64 big t ++ v)
| sa_online_old base v : base <> 0 ->
    (forall t w, plausible_time t -> v <> app_i64 big t ++ w) -> stored_as big true base v v.

(* What the theorems assume of a table with primary key columns [pk], an index on [fs] and a row:
   values fit their columns (no NUL byte in a string), an index does not repeat a column, at most
   8 columns if one is nullable, a column of both the index and the primary key is one and the
   same, primary key columns are NOT NULL and there is at least one. *)
Record entry_ok (r : record) (fs pk : list field_info) : Prop := {
  eo_row : row_ok r fs;
  eo_pk_row : row_ok r pk;
  eo_distinct : distinct_cols fs;
  eo_nullable : existsb f_can_null fs = true -> (length fs <= 8)%nat;
  eo_same : forall f g, In f fs -> In g pk -> f_pb_idx f = f_pb_idx g -> f = g;
  eo_pk_not_null : existsb f_can_null pk = false;
  eo_pk : pk <> []
}.
