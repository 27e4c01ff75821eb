(* The three users of the range test: compaction filter, split copy, log replay. *)
From Verif Require Import Common.Bytes Key.Model Key.Spec Key.ProofsKey Key.ProofsTop Split.Model Split.Spec Split.Proofs.
Local Open Scope Z_scope.

Lemma app_i64_be big t : - 9223372036854775808 <= t < 9223372036854775808 -> app_i64 big t = be_bytes 8 (t + 9223372036854775808).
Proof.
  intros B. assert (V : value_ok INT64 (VNum t)) by (cbn [value_ok]; unfold int_val_ok; cbn [int_range]; lia).
  pose proof (encode_num big INT64 t false V) as E. cbn [encode_field width ncode] in E. injection E as ->. reflexivity.
Qed.

Lemma app_i64_len big t : length (app_i64 big t) = 8%nat.
Proof. unfold app_i64, mem_of. destruct big; [|]; rewrite ?be_bytes_length, ?le_bytes_length; reflexivity. Qed.

Lemma extract_app_i64 big t v : - 9223372036854775808 <= t < 9223372036854775808 -> extract_i64 big (app_i64 big t ++ v) 0 = Some t.
Proof.
  intros B. assert (V : value_ok INT64 (VNum t)) by (cbn [value_ok]; unfold int_val_ok; cbn [int_range]; lia).
  pose proof (decode_num big INT64 t [] v V) as D. cbn [app length width ncode nnorm decode_field] in D.
  rewrite <- (app_i64_be big t B) in D. unfold fixed in D.
  destruct (_ <? _)%nat; [discriminate|]. destruct (extract_i64 big (app_i64 big t ++ v) 0); [|discriminate].
  injection D as ->. reflexivity.
Qed.

Lemma extract_inv big v t : bytes_ok v -> (8 <= length v)%nat -> extract_i64 big v 0 = Some t ->
  v = app_i64 big t ++ skipn 8 v.
Proof.
  intros Hb Hl E. rewrite <- (firstn_skipn 8 v) in E. rewrite <- (firstn_skipn 8 v) at 1. f_equal.
  assert (B8 : bytes_ok (firstn 8 v)). { unfold bytes_ok in *. rewrite <- (firstn_skipn 8 v) in Hb. apply Forall_app in Hb. apply Hb. }
  assert (L8 : length (firstn 8 v) = 8%nat) by (rewrite firstn_length; lia).
  pose proof (be_bytes_be_val _ B8) as R. pose proof (be_val_bound _ B8) as Bd. rewrite L8 in R, Bd.
  change (256 ^ Z.of_nat 8) with (2 ^ 64) in Bd.
  set (n := be_val (firstn 8 v)) in *.
  assert (Bt : - 9223372036854775808 <= n - 9223372036854775808 < 9223372036854775808) by (change (2 ^ 64) with 18446744073709551616 in Bd; lia).
  rewrite <- R in E |- *.
  replace n with (n - 9223372036854775808 + 9223372036854775808) in E at 1 by lia. rewrite <- (app_i64_be big _ Bt) in E.
  rewrite extract_app_i64 in E by exact Bt. injection E as <-. rewrite app_i64_be by exact Bt. f_equal. lia.
Qed.

Lemma valid_plausible t : valid_timestamp_us t = true <-> plausible_time t.
Proof. unfold valid_timestamp_us, plausible_time. rewrite andb_true_iff, !Z.ltb_lt. reflexivity. Qed.

Lemma ttl_strip big t base v sv use : bytes_ok v -> (t = I_KEY /\ v = [] \/ t = I_UNIQ) -> stored_as big use base v sv ->
  (if use then ttl_decode big t base sv else Some sv) = Some v.
Proof.
  intros Hb Ht Hs. inversion Hs; subst; [reflexivity|..]; unfold ttl_decode.
  - change (0 =? 0) with true. cbn iota. rewrite app_length, app_i64_len. cbn [Nat.ltb Nat.leb Nat.add].
    f_equal. rewrite <- (app_i64_len big t0). apply skipn_app_len.
  - replace (base =? 0) with false by (symmetry; apply Z.eqb_neq; assumption).
    rewrite app_length, app_i64_len. cbn [Nat.ltb Nat.leb Nat.add].
    match goal with P : plausible_time _ |- _ => pose proof P as P'; apply valid_plausible in P'; unfold plausible_time in P end.
    rewrite extract_app_i64 by (lia). rewrite P'. cbn [negb].
    assert (Sk : skipn 8 (app_i64 big t0 ++ v) = v) by (rewrite <- (app_i64_len big t0) at 1; apply skipn_app_len).
    destruct Ht as [[-> ->]| ->]; rewrite ?Sk; reflexivity.
  - replace (base =? 0) with false by (symmetry; apply Z.eqb_neq; assumption).
    destruct (Nat.ltb_spec (length sv) 8) as [L|L]; [reflexivity|].
    destruct (extract_i64 big sv 0) as [time|] eqn:E.
    + destruct (valid_timestamp_us time) eqn:V; [exfalso|reflexivity].
      apply valid_plausible in V. apply extract_inv in E; [|exact Hb|exact L].
      match goal with X : forall t w, _ -> _ <> _ |- _ => exact (X _ _ V E) end.
    + exfalso. unfold extract_i64, extract_word, peek in E. destruct (Nat.leb_spec (0 + 8) (length sv)); [discriminate|lia].
Qed.

Lemma colb_bytes r pk : row_ok r pk -> forall sub, incl sub pk -> bytes_ok (flat_map (colb r) sub).
Proof.
  intros Hr. unfold row_ok in Hr. rewrite Forall_forall in Hr.
  induction sub as [|f sub IH]; intros Hi; cbn [flat_map]; [constructor|].
  apply Forall_app. split; [|apply IH; intros x Hx; apply Hi; right; exact Hx].
  unfold colb. destruct (col_value r f) as [v|] eqn:E; [|constructor].
  destruct (Hr f (Hi f (or_introl eq_refl))) as [Ht Hv]. pose proof (col_value_ok r f v Ht Hv E) as Ok.
  destruct v as [z|s]; cbn [fenc]; [apply be_bytes_ok|].
  apply Forall_app. split; [|constructor; [unfold is_byte; lia|constructor]].
  destruct (f_type f); cbn in Ok; try contradiction. unfold no_nul in Ok. eapply Forall_impl; [|exact Ok].
  unfold is_byte; cbn; intros; lia.
Qed.

Lemma entry_value big t fs pk r pkb k v : t = I_KEY \/ t = I_UNIQ -> entry_ok r fs pk ->
  row_key big r pk pkb -> secondary_entry big (update_index t false fs pk) r = Some (k, v) ->
  bytes_ok v /\ (t = I_KEY /\ v = [] \/ t = I_UNIQ).
Proof.
  intros Ht He Hk Hs. destruct (entry_form _ _ _ _ _ _ _ _ Ht He Hk Hs) as [FK FU].
  destruct Ht as [-> | ->].
  - destruct (FK eq_refl) as [_ ->]. split; [constructor|auto].
  - destruct (FU eq_refl) as [_ ->]. split; [|auto]. apply colb_bytes with (pk := pk); [apply He|].
    destruct (update_cases I_UNIQ fs pk (or_intror eq_refl)) as (_ & _ & _ & _ & Cs).
    destruct Cs as [(_ & _ & _ & ->)|(_ & _ & _ & [(_ & ->)|(_ & _ & m & -> & _)])]; [apply incl_refl|apply incl_refl|apply pk_layout_incl].
Qed.

Lemma in_bounds_iff k s e : in_bounds k (Some s) (Some e) = true <-> in_region s e k.
Proof.
  unfold in_bounds, in_region. rewrite andb_true_iff. destruct e as [|b e].
  - destruct (bcompare k s); split; intuition congruence.
  - destruct (bcompare k s), (bcompare k (b :: e)); split; intuition congruence.
Qed.

Lemma in_bounds_end k e : in_bounds k None (Some e) = true <-> in_region [] e k.
Proof.
  unfold in_bounds, in_region. cbn [andb].
  assert (X : bcompare k [] <> Lt) by (destruct k; discriminate).
  destruct e as [|b e]; [intuition congruence|]. destruct (bcompare k (b :: e)); split; intuition congruence.
Qed.

Section Use.
Context (oversh : Z -> option Z) (big : bool) (Ho : oversh 0 = Some 0).
Context (t : index_type) (fs pk : list field_info) (r : record) (pkb k v sv : list Z) (use : bool) (base : Z).
Context (Ht : t = I_KEY \/ t = I_UNIQ) (He : entry_ok r fs pk) (Hk : row_key big r pk pkb).
Context (Hs : secondary_entry big (update_index t false fs pk) r = Some (k, v)).

Lemma filter_entry end_ (Hv : stored_as big use base v sv) :
  exists b, filter_drops oversh big {| fi_end_key := end_; fi_use_normal_ttl := use; fi_base := base |}
    (primary_index pk) (update_index t false fs pk) k sv = Some b /\ (b = false <-> in_region [] end_ pkb).
Proof using Ho Ht He Hk Hs.
  unfold filter_drops. cbn [fi_end_key fi_use_normal_ttl fi_base].
  destruct (update_cases t fs pk Ht) as (Tt & _ & Tg & _). rewrite Tt, Tg.
  destruct (entry_value _ _ _ _ _ _ _ _ Ht He Hk Hs) as [Hb Hc].
  rewrite (ttl_strip big t base v sv use Hb Hc Hv).
  pose proof (fits_entry oversh big t fs pk r pkb k v None (Some end_) Ho Ht He Hk Hs) as F.
  rewrite F. destruct end_ as [|e0 end_'] eqn:Ee.
  - exists false. split; [reflexivity|]. split; [|reflexivity]. intros _. split; [destruct pkb; discriminate|left; reflexivity].
  - exists (negb (in_bounds pkb None (Some (e0 :: end_')))). split; [destruct Ht as [-> | ->]; reflexivity|].
    rewrite negb_false_iff. apply in_bounds_end.
Qed.

Lemma copy_entry split_ end_ (Hv : stored_as big use base v sv) :
  exists b, split_copies oversh big use base split_ end_ (primary_index pk) (update_index t false fs pk) k sv = Some b /\
    (b = true <-> in_region split_ end_ pkb).
Proof using Ho Ht He Hk Hs.
  unfold split_copies. destruct (update_cases t fs pk Ht) as (Tt & _ & Tg & _). rewrite Tt, Tg.
  destruct (entry_value _ _ _ _ _ _ _ _ Ht He Hk Hs) as [Hb Hc].
  rewrite (ttl_strip big t base v sv use Hb Hc Hv).
  pose proof (fits_entry oversh big t fs pk r pkb k v (Some split_) (Some end_) Ho Ht He Hk Hs) as F.
  rewrite F. exists (in_bounds pkb (Some split_) (Some end_)). split; [destruct Ht as [-> | ->]; reflexivity|apply in_bounds_iff].
Qed.

Lemma replay_entry start end_ :
  exists b, replay_takes oversh big start end_ (primary_index pk) (update_index t false fs pk) k v = Some b /\
    (b = true <-> in_region start end_ pkb).
Proof using Ho Ht He Hk Hs.
  unfold replay_takes. destruct (update_cases t fs pk Ht) as (Tt & _ & Tg & _). rewrite Tt, Tg.
  pose proof (fits_entry oversh big t fs pk r pkb k v (Some start) (Some end_) Ho Ht He Hk Hs) as F.
  rewrite F. exists (in_bounds pkb (Some start) (Some end_)). split; [destruct Ht as [-> | ->]; reflexivity|apply in_bounds_iff].
Qed.
End Use.

(* rows themselves *)
Lemma primary_type pk : ix_type (ix (primary_index pk)) = I_PRIMARY /\ ix_global (primary_index pk) = false.
Proof. unfold primary_index, update_index. destruct (layout pk 0 []). auto. Qed.

Lemma filter_row oversh big fi pk k sv :
  exists b, filter_drops oversh big fi (primary_index pk) (primary_index pk) k sv = Some b /\
    (b = false <-> in_region [] (fi_end_key fi) k).
Proof.
  unfold filter_drops. destruct (primary_type pk) as [-> _].
  assert (X : bcompare k [] <> Lt) by (destruct k; discriminate). unfold in_region.
  destruct (fi_end_key fi) as [|e0 e]; [exists false; intuition congruence|].
  eexists. split; [reflexivity|]. rewrite bcompare_antisym. destruct (bcompare k (e0 :: e)); cbn; split; intuition congruence.
Qed.

Lemma copy_row oversh big use base s e pk k sv : e <> [] ->
  exists b, split_copies oversh big use base s e (primary_index pk) (primary_index pk) k sv = Some b /\
    (b = true <-> in_region s e k).
Proof.
  intros Hn. unfold split_copies. destruct (primary_type pk) as [-> _]. eexists. split; [reflexivity|].
  unfold in_region. rewrite andb_true_iff. destruct (bcompare k s), (bcompare k e); split; intuition congruence.
Qed.

Lemma replay_row oversh big s e pk k v :
  exists b, replay_takes oversh big s e (primary_index pk) (primary_index pk) k v = Some b /\
    (b = true <-> in_region s e k).
Proof.
  unfold replay_takes. destruct (primary_type pk) as [-> _]. eexists. split; [reflexivity|].
  unfold in_region. rewrite andb_true_iff, orb_true_iff. destruct e as [|e0 e].
  - destruct (bcompare k s); split; intuition congruence.
  - destruct (bcompare k s), (bcompare k (e0 :: e)); split; intuition congruence.
Qed.
