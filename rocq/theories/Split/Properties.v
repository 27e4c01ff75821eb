(* C36: what a region keeps, copies and drops around a split. *)
From Verif Require Import Common.Bytes Key.Model Key.Spec Split.Model Split.Spec Split.Proofs Split.ProofsUse.
Local Open Scope Z_scope.

(* ---- every index entry is judged by the primary key of its row ---- *)

Theorem C36_range_test_exact :
  forall oversh big t fs pk r pkb k v start end_,
    oversh 0 = Some 0 -> t = I_KEY \/ t = I_UNIQ -> entry_ok r fs pk -> row_key big r pk pkb ->
    secondary_entry big (update_index t false fs pk) r = Some (k, v) ->
    exists b, fits_region_range oversh big k v (Some start) (Some end_) (primary_index pk) (update_index t false fs pk) = Fits b /\
      (b = true <-> in_region start end_ pkb).
Proof.
  intros. eexists. split; [eapply fits_entry; eassumption|apply in_bounds_iff].
Qed.
Print Assumptions C36_range_test_exact.

(* The compaction filter never reads outside a key or value and drops an index entry exactly
   when the primary key of its row is at or beyond the end of the region. *)
Theorem C36_filter_drops_exactly_what_left :
  forall oversh big t fs pk r pkb k v sv use base end_,
    oversh 0 = Some 0 -> t = I_KEY \/ t = I_UNIQ -> entry_ok r fs pk -> row_key big r pk pkb ->
    secondary_entry big (update_index t false fs pk) r = Some (k, v) -> stored_as big use base v sv ->
    exists b, filter_drops oversh big {| fi_end_key := end_; fi_use_normal_ttl := use; fi_base := base |}
      (primary_index pk) (update_index t false fs pk) k sv = Some b /\ (b = false <-> in_region [] end_ pkb).
Proof. intros; eapply filter_entry; eassumption. Qed.
Print Assumptions C36_filter_drops_exactly_what_left.

Theorem C36_filter_drops_exactly_what_left_rows :
  forall oversh big fi pk k sv,
    exists b, filter_drops oversh big fi (primary_index pk) (primary_index pk) k sv = Some b /\
      (b = false <-> in_region [] (fi_end_key fi) k).
Proof. exact filter_row. Qed.
Print Assumptions C36_filter_drops_exactly_what_left_rows.

(* The pairs of a region: rows, and entries of non-global secondary indexes, stored the way the
   filter's TTL settings say. *)
Inductive pair_of (big : bool) (pk : list field_info) (use : bool) (base : Z) : stored -> Prop :=
| po_row k sv : pair_of big pk use base {| sd_index := primary_index pk; sd_key := k; sd_value := sv; sd_pk := k |}
| po_index t fs r pkb k v sv : t = I_KEY \/ t = I_UNIQ -> entry_ok r fs pk -> row_key big r pk pkb ->
    secondary_entry big (update_index t false fs pk) r = Some (k, v) -> stored_as big use base v sv ->
    pair_of big pk use base {| sd_index := update_index t false fs pk; sd_key := k; sd_value := sv; sd_pk := pkb |}.

(* No compaction, whatever pairs it visits, changes what any read restricted to the region's
   range sees. *)
Theorem C36_compaction_invisible :
  forall oversh big pk use base start end_ before after read,
    oversh 0 = Some 0 -> Forall (pair_of big pk use base) before ->
    compaction oversh big {| fi_end_key := end_; fi_use_normal_ttl := use; fi_base := base |} (primary_index pk) before after ->
    (forall e, read e = true -> in_region start end_ (sd_pk e)) ->
    filter read after = filter read before.
Proof.
  intros oversh big pk use base start end_ before after read Ho Hp Hc Hr.
  induction Hc as [|e l l' Hc IH|e l l' Hd Hc IH]; inversion Hp as [|? ? Pe Pl]; subst; cbn [filter].
  - reflexivity.
  - rewrite IH by assumption. reflexivity.
  - rewrite IH by assumption. destruct (read e) eqn:R; [exfalso|reflexivity].
    specialize (Hr e R). assert (Hin : in_region [] end_ (sd_pk e)).
    { destruct Hr as [_ Hr]. split; [destruct (sd_pk e); discriminate|exact Hr]. }
    inversion Pe; subst; cbn [sd_index sd_key sd_value sd_pk] in *.
    + match goal with X : filter_drops ?o ?b ?f ?p _ ?k ?s = _ |- _ => destruct (filter_row o b f pk k s) as (c & E & I1) end.
      cbn [fi_end_key] in I1. apply I1 in Hin. congruence.
    + edestruct filter_entry with (end_ := end_) as (c & E & I1); [exact Ho|eassumption|eassumption|eassumption|eassumption|eassumption|].
      apply I1 in Hin. congruence.
Qed.
Print Assumptions C36_compaction_invisible.

(* A split at [split_] of a region ending at [end_]: the new region receives exactly the pairs
   with primary key in [split_, end_) ... *)
Theorem C36_split_copies_exactly :
  forall oversh big t fs pk r pkb k v sv use base split_ end_,
    oversh 0 = Some 0 -> t = I_KEY \/ t = I_UNIQ -> entry_ok r fs pk -> row_key big r pk pkb ->
    secondary_entry big (update_index t false fs pk) r = Some (k, v) -> stored_as big use base v sv ->
    exists b, split_copies oversh big use base split_ end_ (primary_index pk) (update_index t false fs pk) k sv = Some b /\
      (b = true <-> in_region split_ end_ pkb).
Proof. intros; eapply copy_entry; eassumption. Qed.
Print Assumptions C36_split_copies_exactly.

Theorem C36_split_copies_exactly_rows :
  forall oversh big use base split_ end_ pk k sv, end_ <> [] ->
    exists b, split_copies oversh big use base split_ end_ (primary_index pk) (primary_index pk) k sv = Some b /\
      (b = true <-> in_region split_ end_ k).
Proof. exact copy_row. Qed.
Print Assumptions C36_split_copies_exactly_rows.

(* ... and, of the writes it repeats from the log, exactly those in its range *)
Theorem C36_replay_takes_exactly :
  forall oversh big t fs pk r pkb k v start end_,
    oversh 0 = Some 0 -> t = I_KEY \/ t = I_UNIQ -> entry_ok r fs pk -> row_key big r pk pkb ->
    secondary_entry big (update_index t false fs pk) r = Some (k, v) ->
    exists b, replay_takes oversh big start end_ (primary_index pk) (update_index t false fs pk) k v = Some b /\
      (b = true <-> in_region start end_ pkb).
Proof. intros; eapply replay_entry; eassumption. Qed.
Print Assumptions C36_replay_takes_exactly.

Theorem C36_replay_takes_exactly_rows :
  forall oversh big start end_ pk k v,
    exists b, replay_takes oversh big start end_ (primary_index pk) (primary_index pk) k v = Some b /\
      (b = true <-> in_region start end_ k).
Proof. exact replay_row. Qed.
Print Assumptions C36_replay_takes_exactly_rows.

(* Of an entry of the region before the split exactly one of the two regions keeps a copy: the
   new one copied it, or the old one, whose end is now the split key, does not drop it. *)
Theorem C36_split_loses_and_duplicates_nothing :
  forall oversh big t fs pk r pkb k v sv use base start split_ end_,
    oversh 0 = Some 0 -> t = I_KEY \/ t = I_UNIQ -> entry_ok r fs pk -> row_key big r pk pkb ->
    secondary_entry big (update_index t false fs pk) r = Some (k, v) -> stored_as big use base v sv ->
    in_region start end_ pkb -> split_ <> [] ->
    exists copied dropped,
      split_copies oversh big use base split_ end_ (primary_index pk) (update_index t false fs pk) k sv = Some copied /\
      filter_drops oversh big {| fi_end_key := split_; fi_use_normal_ttl := use; fi_base := base |}
        (primary_index pk) (update_index t false fs pk) k sv = Some dropped /\ copied = dropped.
Proof.
  intros oversh big t fs pk r pkb k v sv use base start split_ end_ Ho Ht He Hk Hs Hv [_ Hin] Hn.
  destruct (copy_entry oversh big Ho t fs pk r pkb k v sv use base Ht He Hk Hs split_ end_ Hv) as (c & Ec & Ic).
  destruct (filter_entry oversh big Ho t fs pk r pkb k v sv use base Ht He Hk Hs split_ Hv) as (d & Ed & Id).
  exists c, d. repeat split; [exact Ec|exact Ed|]. unfold in_region in Ic, Id.
  destruct c, d; try reflexivity; exfalso.
  - destruct Id as [Id _]. destruct (Id eq_refl) as [_ [X|X]]; [congruence|]. destruct Ic as [Ic _]. destruct (Ic eq_refl) as [Y _]. congruence.
  - assert (N : ~ (bcompare pkb split_ <> Lt)) by (intros X; destruct Ic as [_ Ic]; discriminate (Ic (conj X Hin))).
    destruct Id as [_ Id]. assert (D : true = false); [|discriminate]. apply Id. split; [destruct pkb; discriminate|].
    right. destruct (bcompare pkb split_); [exfalso; apply N; discriminate|reflexivity|exfalso; apply N; discriminate].
Qed.
Print Assumptions C36_split_loses_and_duplicates_nothing.

(* ---- a table that meets the hypotheses: pk (id BIGINT, name VARCHAR), KEY(age, name),
   UNIQUE(id, age) with the primary key id2 fixed size below ---- *)
Definition f_id := mk_field INT64 false 1.
Definition f_name := mk_field STRING false 2.
Definition f_age := mk_field INT32 true 3.
Definition f_code := mk_field UINT16 false 4.
Definition row1 : record := fun i => if i =? 1 then Some (VNum 5) else if i =? 2 then Some (VStr [97; 98])
  else if i =? 4 then Some (VNum 513) else None.
Definition sh0 (z : Z) : option Z := Some 0.

Lemma row1_ok fs : Forall (fun f => In f [f_id; f_name; f_age; f_code]) fs -> row_ok row1 fs.
Proof.
  intros H. eapply Forall_impl; [|exact H]. intros f [<-|[<-|[<-|[<-|[]]]]]; (split; [discriminate|]); cbn; intros v E;
    try discriminate; injection E as <-; cbn; unfold int_val_ok; cbn; try lia.
  repeat constructor; lia.
Qed.

Ltac in_fields := repeat (apply Forall_cons; [cbn; tauto|]); apply Forall_nil.

(* variable-length, nullable index: the range test walks over the columns *)
Example C36_variable_index : entry_ok row1 [f_age; f_name] [f_id; f_name] /\
  secondary_entry false (update_index I_KEY false [f_age; f_name] [f_id; f_name]) row1 =
    Some ([128; 97; 98; 0; 128; 0; 0; 0; 0; 0; 0; 5; 97; 98; 0], []) /\
  fits_region_range sh0 false [128; 97; 98; 0; 128; 0; 0; 0; 0; 0; 0; 5; 97; 98; 0] [] (Some [128; 0; 0; 0; 0; 0; 0; 5; 97; 98; 0])
    (Some [128; 0; 0; 0; 0; 0; 0; 6]) (primary_index [f_id; f_name]) (update_index I_KEY false [f_age; f_name] [f_id; f_name]) = Fits true.
Proof.
  split; [|split; vm_compute; reflexivity]. constructor; try (apply row1_ok; in_fields).
  - repeat constructor; cbn; intuition discriminate.
  - cbn; lia.
  - intros f g [<-|[<-|[]]] [<-|[<-|[]]]; cbn; intros; first [reflexivity|discriminate].
  - reflexivity.
  - discriminate.
Qed.

(* fixed-length unique index sharing a column with the primary key: the key is put together from
   the entry's key and value *)
Example C36_overlapping_index : entry_ok row1 [f_code] [f_code; f_id] /\
  ix_overlap (update_index I_UNIQ false [f_code] [f_code; f_id]) = true /\
  secondary_entry false (update_index I_UNIQ false [f_code] [f_code; f_id]) row1 =
    Some ([0; 2; 1], [128; 0; 0; 0; 0; 0; 0; 5]) /\
  fits_region_range sh0 false [0; 2; 1] [128; 0; 0; 0; 0; 0; 0; 5] (Some [2; 1; 128]) (Some [2; 2])
    (primary_index [f_code; f_id]) (update_index I_UNIQ false [f_code] [f_code; f_id]) = Fits true.
Proof.
  split; [|repeat split; vm_compute; reflexivity]. constructor; try (apply row1_ok; in_fields).
  - repeat constructor; cbn; intuition discriminate.
  - cbn; lia.
  - intros f g [<-|[]] [<-|[<-|[]]]; cbn; intros; first [reflexivity|discriminate].
  - reflexivity.
  - discriminate.
Qed.

(* ---- where the property fails ---- *)

(* TTL switched on for an existing table.  Region::update_ttl_info (region.cpp:8501-8580) does
   not tell the filter, and a later set_filter_region_info with the same end key is ignored.
   The filter then takes the 8-byte expiry time in front of a unique index value for the primary
   key, and compaction drops the entry of a row that is inside the region. *)
Theorem C36_ttl_enabled_later_refuted :
  exists old new k v sv,
    let fi := set_filter_region_info (Some old) new in
    secondary_entry false (update_index I_UNIQ false [f_code] [f_id]) row1 = Some (k, v) /\
    stored_as false (fi_use_normal_ttl new) (fi_base new) v sv /\
    in_region [] (fi_end_key fi) v /\
    filter_drops sh0 false fi (primary_index [f_id]) (update_index I_UNIQ false [f_code] [f_id]) k sv = Some true.
Proof.
  exists {| fi_end_key := [128; 0; 0; 0; 0; 0; 0; 10]; fi_use_normal_ttl := false; fi_base := 0 |},
         {| fi_end_key := [128; 0; 0; 0; 0; 0; 0; 10]; fi_use_normal_ttl := true; fi_base := 1700000000000000 |},
         [0; 2; 1], [128; 0; 0; 0; 0; 0; 0; 5], (app_i64 false 1700000100000000 ++ [128; 0; 0; 0; 0; 0; 0; 5]).
  cbn zeta. split; [vm_compute; reflexivity|]. split; [|split; [|vm_compute; reflexivity]].
  - cbn [fi_use_normal_ttl fi_base]. apply sa_online_new; [discriminate|]. unfold plausible_time; lia.
  - split; [vm_compute; discriminate|right; vm_compute; reflexivity].
Qed.
Print Assumptions C36_ttl_enabled_later_refuted.

(* TTL switched on for a table whose BIGINT primary key holds microsecond times: the value of an
   old unique index entry is such a time, is taken for an expiry prefix and cut off, and a split
   does not copy the entry although the row goes to the new region. *)
Theorem C36_timestamp_primary_key_refuted :
  exists r k v split_ end_ base, base <> 0 /\
    row_key false r [f_id] v /\ entry_ok r [f_code] [f_id] /\
    secondary_entry false (update_index I_UNIQ false [f_code] [f_id]) r = Some (k, v) /\
    in_region split_ end_ v /\
    split_copies sh0 false true base split_ end_ (primary_index [f_id]) (update_index I_UNIQ false [f_code] [f_id]) k v = Some false.
Proof.
  exists (fun i => if i =? 1 then Some (VNum 1700000100000000) else if i =? 4 then Some (VNum 513) else None),
    [0; 2; 1], (app_i64 false 1700000100000000), [128], [129], 1700000000000000.
  split; [discriminate|]. split; [|split; [|split; [vm_compute; reflexivity|split; [|vm_compute; reflexivity]]]].
  - rewrite <- (app_nil_r (app_i64 _ _)). eapply rk_cons; [reflexivity|reflexivity|constructor].
  - constructor.
    + repeat constructor; try discriminate. cbn. intros v E. injection E as <-. cbn. unfold int_val_ok; cbn; lia.
    + repeat constructor; try discriminate. cbn. intros v E. injection E as <-. cbn. unfold int_val_ok; cbn; lia.
    + repeat constructor; cbn; intuition discriminate.
    + cbn; lia.
    + intros f g [<-|[]] [<-|[]]; cbn; discriminate.
    + reflexivity.
    + discriminate.
  - split; [vm_compute; discriminate|right; vm_compute; reflexivity].
Qed.
Print Assumptions C36_timestamp_primary_key_refuted.

(* A primary key column declared without NOT NULL: the primary index then has no fixed length,
   so the test does not rebuild the key although the entry leaves out the shared column. *)
Theorem C36_nullable_primary_key_refuted :
  exists pk k v pkb end_,
    row_key false row1 pk pkb /\
    secondary_entry false (update_index I_UNIQ false [f_code] pk) row1 = Some (k, v) /\
    in_region [] end_ pkb /\
    filter_drops sh0 false {| fi_end_key := end_; fi_use_normal_ttl := false; fi_base := 0 |}
      (primary_index pk) (update_index I_UNIQ false [f_code] pk) k v = Some true.
Proof.
  exists [f_code; mk_field INT64 true 1], [0; 2; 1], [128; 0; 0; 0; 0; 0; 0; 5],
    ([2; 1] ++ [128; 0; 0; 0; 0; 0; 0; 5] ++ []), [3].
  split; [|split; [vm_compute; reflexivity|split; [|vm_compute; reflexivity]]].
  - eapply rk_cons; [reflexivity|reflexivity|]. eapply rk_cons; [reflexivity|reflexivity|]. constructor.
  - split; [vm_compute; discriminate|right; vm_compute; reflexivity].
Qed.
Print Assumptions C36_nullable_primary_key_refuted.
