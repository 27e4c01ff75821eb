(* C01-C08: index keys. *)
From Verif.Common Require Import Bytes.
From Verif.Key Require Import Model Spec ProofsTop.
Local Open Scope Z_scope.

(* ---------- C01 ---------- *)
Theorem C01_int_key_order : forall big t x y,
  int_val_ok t x -> int_val_ok t y ->
  exists a b, encode_field big t (VNum x) false = Some a /\ encode_field big t (VNum y) false = Some b /\
    length a = length b /\ bcompare a b = (x ?= y).
Proof. exact int_key_order. Qed.
Print Assumptions C01_int_key_order.
Example C01_nonvacuous : int_val_ok INT64 (-9223372036854775808) /\ int_val_ok INT64 5
  /\ encode_field false INT64 (VNum (-2)) false = Some [127;255;255;255;255;255;255;254]
  /\ encode_field false INT64 (VNum 3) false = Some [128;0;0;0;0;0;0;3].
Proof. unfold int_val_ok; cbn [int_range]. repeat split; try lia; vm_compute; reflexivity. Qed.

(* ---------- C02 ---------- *)
Theorem C02_int_key_roundtrip : forall big t x pre post,
  int_val_ok t x ->
  exists a, encode_field big t (VNum x) false = Some a /\
    decode_field big (pre ++ a ++ post) t (length pre) = DOk (VNum x, (length pre + length a)%nat) /\
    skip_field (pre ++ a ++ post) t (length pre) = DOk (length pre + length a)%nat.
Proof. exact int_key_roundtrip. Qed.
Print Assumptions C02_int_key_roundtrip.
Example C02_nonvacuous : decode_field false [7; 127; 254; 9] INT16 1 = DOk (VNum (-2), 3%nat).
Proof. vm_compute. reflexivity. Qed.

(* ---------- C03 ---------- *)
Theorem C03_float_key_order : forall big t v w s u,
  t = FLOAT \/ t = DOUBLE -> value_ok t v -> value_ok t w ->
  exists a b, encode_field big t v false = Some a /\ encode_field big t w false = Some b /\
    bcompare (a ++ s) (b ++ u) = match value_compare t v w with Eq => bcompare s u | c => c end.
Proof. intros big t v w s u _. exact (value_key_order big t v w s u). Qed.
Print Assumptions C03_float_key_order.
Theorem C03_float_key_roundtrip : forall big t v pre post,
  t = FLOAT \/ t = DOUBLE -> value_ok t v ->
  exists a v', encode_field big t v false = Some a /\
    decode_field big (pre ++ a ++ post) t (length pre) = DOk (v', (length pre + length a)%nat) /\
    same_value t v v'.
Proof. intros big t v pre post _. exact (value_key_roundtrip big t v pre post). Qed.
Print Assumptions C03_float_key_roundtrip.
(* -1.5 and 0.25 as binary32; -1.5 < 0.25 *)
Example C03_nonvacuous : value_ok FLOAT (VNum 0xBFC00000) /\ value_ok FLOAT (VNum 0x3E800000)
  /\ value_compare FLOAT (VNum 0xBFC00000) (VNum 0x3E800000) = Lt.
Proof.
  repeat split; try (vm_compute; congruence); unfold float_nan; intros H; vm_compute in H; congruence.
Qed.
(* A quiet NaN is stored as an ordinary number: it reads back as a subnormal. *)
Theorem C03_nan_refuted : exists x, float_pattern 8 23 x /\ float_nan 8 23 x /\
  exists a y, encode_field false FLOAT (VNum x) false = Some a /\
    decode_field false a FLOAT 0 = DOk (VNum y, 4%nat) /\ ~ float_nan 8 23 y.
Proof.
  exists 0x7FC00000. split; [split; vm_compute; congruence|]. split; [unfold float_nan; vm_compute; reflexivity|].
  exists [128; 63; 255; 255], 0x003FFFFF. split; [vm_compute; reflexivity|]. split; [vm_compute; reflexivity|].
  unfold float_nan. intros H. vm_compute in H. congruence.
Qed.
Print Assumptions C03_nan_refuted.

(* ---------- C04 ---------- *)
Theorem C04_primary_key_order : forall big fs pk r1 r2 v1 v2 pre k1 k2 f1 f2 s1 s2,
  row_has r1 fs v1 -> row_has r2 fs v2 ->
  encode_key big (make_index I_PRIMARY fs pk) r1 pre (-1) false = EOk k1 f1 ->
  encode_key big (make_index I_PRIMARY fs pk) r2 pre (-1) false = EOk k2 f2 ->
  bcompare (k1 ++ s1) (k2 ++ s2) =
  match tuple_compare (map f_type fs) v1 v2 with Eq => bcompare s1 s2 | c => c end.
Proof. exact primary_key_order. Qed.
Print Assumptions C04_primary_key_order.
Theorem C04_primary_key_accepted : forall big fs pk r vs pre,
  row_has r fs vs -> (length fs <= 8)%nat \/ existsb f_can_null fs = false ->
  exists key, encode_key big (make_index I_PRIMARY fs pk) r pre (-1) false = EOk key true.
Proof. exact primary_key_accepted. Qed.
Print Assumptions C04_primary_key_accepted.
Theorem C04_secondary_key_order : forall big t fs pk r1 r2 pre k1 k2 f1 f2 s1 s2,
  t = I_KEY \/ t = I_UNIQ -> row_ok r1 fs -> row_ok r2 fs ->
  encode_key big (make_index t fs pk) r1 pre (-1) false = EOk k1 f1 ->
  encode_key big (make_index t fs pk) r2 pre (-1) false = EOk k2 f2 ->
  bcompare (k1 ++ s1) (k2 ++ s2) =
  match index_compare (map f_type fs) (map (col_value r1) fs) (map (col_value r2) fs) with
  | Eq => bcompare s1 s2 | c => c end.
Proof. exact secondary_key_order. Qed.
Print Assumptions C04_secondary_key_order.
Theorem C04_secondary_key_accepted : forall big t fs pk r pre,
  t = I_KEY \/ t = I_UNIQ -> row_ok r fs -> (length fs <= 8)%nat \/ existsb f_can_null fs = false ->
  exists key full, encode_key big (make_index t fs pk) r pre (-1) false = EOk key full.
Proof. exact secondary_key_accepted. Qed.
Print Assumptions C04_secondary_key_accepted.
(* A prefix scan (LIKE 'p%' on the last given column) selects exactly the rows
   that agree on the leading columns and whose string starts with p. *)
Theorem C04_prefix_scan : forall big fs f rest pk rp r vp p vs kp k fp fk,
  let all := fs ++ f :: rest in
  Z.of_nat (length all) < 2 ^ 32 -> f_type f = STRING ->
  row_has rp fs vp -> rp (f_pb_idx f) = Some (VStr p) -> no_nul p ->
  row_has r all vs ->
  encode_key big (make_index I_PRIMARY all pk) rp [] (Z.of_nat (length fs + 1)) true = EOk kp fp ->
  encode_key big (make_index I_PRIMARY all pk) r [] (-1) false = EOk k fk ->
  is_prefix kp k <->
  (exists a s b, vs = a ++ VStr s :: b /\ length a = length fs /\
     tuple_compare (map f_type fs) vp a = Eq /\ is_prefix p s).
Proof. exact prefix_scan. Qed.
Print Assumptions C04_prefix_scan.

Definition ex_fields : list field_info :=
  [mk_field INT32 false 1; mk_field STRING true 2; mk_field DOUBLE false 3].
Definition ex_row : record := fun i =>
  if i =? 1 then Some (VNum (-7)) else if i =? 2 then Some (VStr [97; 98])
  else if i =? 3 then Some (VNum 0xBFF8000000000000) else None.
Definition ex_row_null : record := fun i => if i =? 1 then Some (VNum 4) else None.
Lemma ex_row_has : row_has ex_row ex_fields [VNum (-7); VStr [97; 98]; VNum 0xBFF8000000000000].
Proof.
  repeat constructor; cbn; unfold int_val_ok; cbn [int_range];
    try lia; unfold float_nan; intros H; vm_compute in H; congruence.
Qed.
Example C04_nonvacuous :
  row_has ex_row ex_fields [VNum (-7); VStr [97; 98]; VNum 0xBFF8000000000000] /\
  row_ok ex_row_null [mk_field INT32 false 1; mk_field STRING true 2] /\
  encode_key false (make_index I_PRIMARY ex_fields []) ex_row [] (-1) false =
    EOk [127;255;255;249; 97;98;0; 64;7;255;255;255;255;255;255] true /\
  encode_key false (make_index I_KEY [mk_field INT32 false 1; mk_field STRING true 2] []) ex_row_null [] (-1) false =
    EOk [64; 128;0;0;4] false.
Proof.
  split; [exact ex_row_has|]. split.
  - repeat constructor; cbn; try congruence; intros v; unfold ex_row_null; cbn; intros E; inversion E; subst.
    cbn. unfold int_val_ok. cbn. lia.
  - split; vm_compute; reflexivity.
Qed.

(* ---------- C05 ---------- *)
Theorem C05_distinct_keys : forall big fs pk r1 r2 v1 v2 pre k1 k2 f1 f2,
  row_has r1 fs v1 -> row_has r2 fs v2 -> Forall (fun f => is_float (f_type f) = false) fs ->
  encode_key big (make_index I_PRIMARY fs pk) r1 pre (-1) false = EOk k1 f1 ->
  encode_key big (make_index I_PRIMARY fs pk) r2 pre (-1) false = EOk k2 f2 ->
  k1 = k2 <-> v1 = v2.
Proof. exact exact_inj. Qed.
Print Assumptions C05_distinct_keys.
(* with floating-point columns: equal keys exactly for tuples equal as SQL values (-0 = +0) *)
Theorem C05_distinct_keys_float : forall big fs pk r1 r2 v1 v2 pre k1 k2 f1 f2,
  row_has r1 fs v1 -> row_has r2 fs v2 ->
  encode_key big (make_index I_PRIMARY fs pk) r1 pre (-1) false = EOk k1 f1 ->
  encode_key big (make_index I_PRIMARY fs pk) r2 pre (-1) false = EOk k2 f2 ->
  k1 = k2 <-> tuple_compare (map f_type fs) v1 v2 = Eq.
Proof. exact comparison_inj. Qed.
Print Assumptions C05_distinct_keys_float.
Example C05_nonvacuous : row_has ex_row (firstn 2 ex_fields) [VNum (-7); VStr [97; 98]] /\
  Forall (fun f => is_float (f_type f) = false) (firstn 2 ex_fields).
Proof. split; repeat constructor; cbn; unfold int_val_ok; cbn [int_range]; lia. Qed.
(* With NUL bytes inside strings two different primary keys collide. *)
Theorem C05_nul_refuted : exists fs r1 r2 k,
  Forall (fun f => f_type f = STRING) fs /\
  map (fun f => r1 (f_pb_idx f)) fs <> map (fun f => r2 (f_pb_idx f)) fs /\
  encode_key false (make_index I_PRIMARY fs []) r1 [] (-1) false = EOk k true /\
  encode_key false (make_index I_PRIMARY fs []) r2 [] (-1) false = EOk k true.
Proof.
  exists [mk_field STRING false 1; mk_field STRING false 2],
    (fun i => if i =? 1 then Some (VStr [97; 0; 98]) else Some (VStr [99])),
    (fun i => if i =? 1 then Some (VStr [97]) else Some (VStr [98; 0; 99])),
    [97; 0; 98; 0; 99; 0].
  split; [repeat constructor|]. split; [cbn; congruence|]. split; vm_compute; reflexivity.
Qed.
Print Assumptions C05_nul_refuted.

(* ---------- C06 ---------- *)
(* Full property: for every index definition the encoder accepts.  Missing here:
   rollup indexes with NULLs (C06_rollup_refuted) and machines on which a shift by
   8 or more of the flag byte is not zero (C06_nine_columns_refuted). *)
Theorem C06_key_roundtrip_partial : forall oversh big t fs pk r r0 pre post key full,
  t = I_PRIMARY /\ (exists vs, row_has r fs vs) \/ (t = I_KEY \/ t = I_UNIQ) ->
  oversh 0 = Some 0 -> row_ok r fs -> distinct_cols fs ->
  encode_key big (make_index t fs pk) r pre (-1) false = EOk key full ->
  exists r', decode_key oversh big (make_index t fs pk) (key ++ post) r0 (length pre) = DOk (r', length key) /\
    Forall (decoded_col r r0 r') fs /\ (forall i, ~ In i (map f_pb_idx fs) -> r' i = r0 i).
Proof. exact key_roundtrip. Qed.
Print Assumptions C06_key_roundtrip_partial.
Theorem C06_pk_suffix_roundtrip : forall big t fs pk vs r r0 key key' full' post,
  t = I_KEY \/ t = I_UNIQ -> row_has r pk vs -> distinct_cols pk ->
  encode_primary_key big (make_index t fs pk) r key = EOk key' full' ->
  exists r', decode_primary_key big (make_index t fs pk) (key' ++ post) r0 (length key) = DOk (r', length key') /\
    Forall (decoded_col r r0 r') pk /\ (forall i, ~ In i (map f_pb_idx pk) -> r' i = r0 i).
Proof. exact pk_suffix_roundtrip. Qed.
Print Assumptions C06_pk_suffix_roundtrip.
Example C06_nonvacuous : row_ok ex_row ex_fields /\ distinct_cols ex_fields /\
  exists r', decode_key (fun _ => None) false (make_index I_KEY ex_fields [])
    ([0; 127;255;255;249; 97;98;0; 64;7;255;255;255;255;255;255] ++ [1;2]) (fun _ => None) 0 = DOk (r', 16%nat)
    /\ r' 1 = Some (VNum (-7)) /\ r' 2 = Some (VStr [97; 98]) /\ r' 3 = Some (VNum 0xBFF8000000000000).
Proof.
  split. { unfold row_ok. repeat constructor; cbn; try congruence; intros v; unfold ex_row; cbn; intros E; inversion E; subst; cbn.
    - unfold int_val_ok; cbn; lia.
    - repeat constructor; lia.
    - split; [split; vm_compute; congruence|]. unfold float_nan. intros H; vm_compute in H; congruence. }
  split. { unfold distinct_cols. cbn. repeat constructor; cbn; intuition lia. }
  eexists. split; [vm_compute; reflexivity|]. vm_compute. auto.
Qed.
(* On rollup indexes the null byte is never filled in: two different rows get one key. *)
Theorem C06_rollup_refuted : exists fs r1 r2 k,
  row_ok r1 fs /\ row_ok r2 fs /\ map (col_value r1) fs <> map (col_value r2) fs /\
  encode_key false (make_index I_ROLLUP fs []) r1 [] (-1) false = EOk k false /\
  encode_key false (make_index I_ROLLUP fs []) r2 [] (-1) false = EOk k false.
Proof.
  exists [mk_field INT32 true 1; mk_field INT32 true 2],
    (fun i => if i =? 1 then Some (VNum 5) else None),
    (fun i => if i =? 2 then Some (VNum 5) else None), [0; 128; 0; 0; 5].
  split; [|split; [|split; [cbn; congruence|split; vm_compute; reflexivity]]];
  repeat constructor; cbn; try congruence; intros v E; inversion E; subst; cbn; unfold int_val_ok; cbn; lia.
Qed.
Print Assumptions C06_rollup_refuted.
(* A primary key of more than eight columns is decoded through a shift wider than
   its operand (undefined in C++), though the encoder accepts it. *)
Theorem C06_nine_columns_refuted : exists fs r k,
  encode_key false (make_index I_PRIMARY fs []) r [] (-1) false = EOk k true /\
  decode_key (fun _ => None) false (make_index I_PRIMARY fs []) k (fun _ => None) 0 = DUb.
Proof.
  exists (map (mk_field UINT8 false) [1;2;3;4;5;6;7;8;9]), (fun i => Some (VNum i)), [1;2;3;4;5;6;7;8;9].
  split; vm_compute; reflexivity.
Qed.
Print Assumptions C06_nine_columns_refuted.

(* ---------- C07 ---------- *)
(* Full property: for every key and every definition.  It is false as it stands
   (C07_string_refuted, C07_empty_secondary_refuted); these are the cases in which it holds. *)
Theorem C07_decode_in_bounds_partial : forall oversh big ix key r pos,
  Forall (fun f => f_type f <> STRING) (ix_fields ix) \/ (exists p, key = p ++ [0]) ->
  (has_null_flag (ix_type ix) = true -> (pos < length key)%nat) ->
  decode_key oversh big ix key r pos <> DOob.
Proof. exact decode_key_safe. Qed.
Print Assumptions C07_decode_in_bounds_partial.
Theorem C07_decode_defined_partial : forall oversh big ix key r pos,
  (length (ix_fields ix) <= 8)%nat -> decode_key oversh big ix key r pos <> DUb.
Proof. exact decode_key_no_ub. Qed.
Print Assumptions C07_decode_defined_partial.
Example C07_nonvacuous :
  decode_key (fun _ => None) false (make_index I_PRIMARY [mk_field INT32 false 1] []) [1;2;3] (fun _ => None) 0 = DErr (-1).
Proof. vm_compute. reflexivity. Qed.
(* a string column without terminator, and an empty secondary key, are over-read *)
Theorem C07_string_refuted : exists fs key,
  decode_key (fun _ => None) false (make_index I_PRIMARY fs []) key (fun _ => None) 0 = DOob.
Proof. exists [mk_field STRING false 1], [97; 98]. vm_compute. reflexivity. Qed.
Print Assumptions C07_string_refuted.
Theorem C07_empty_secondary_refuted : exists fs,
  decode_key (fun _ => None) false (make_index I_KEY fs []) [] (fun _ => None) 0 = DOob.
Proof. exists [mk_field INT32 false 1]. vm_compute. reflexivity. Qed.
Print Assumptions C07_empty_secondary_refuted.

(* ---------- C08 ---------- *)
Theorem C08_end_key_order : forall a b c,
  (end_key_compare a b = Eq <-> a = b) /\
  end_key_compare b a = CompOpp (end_key_compare a b) /\
  (end_key_compare a b = Lt -> end_key_compare b c = Lt -> end_key_compare a c = Lt) /\
  end_key_compare a [] <> Gt.
Proof. exact end_key_total. Qed.
Print Assumptions C08_end_key_order.
Theorem C08_end_key_infinity : forall a b,
  end_key_compare a b = bound_compare (bound_of a) (bound_of b).
Proof. exact end_key_is_bound. Qed.
Print Assumptions C08_end_key_infinity.
Example C08_nonvacuous : end_key_compare [1] [1;0] = Lt /\ end_key_compare [1;0] [] = Lt /\ end_key_compare [] [255;255] = Gt.
Proof. vm_compute. auto. Qed.
