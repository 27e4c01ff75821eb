From Verif.Common Require Import Bytes.
From Verif.Key Require Import Model Spec ProofsWord ProofsMem ProofsFloat ProofsKey.
Local Open Scope Z_scope.

Lemma int_val_value_ok t x : int_val_ok t x -> value_ok t (VNum x).
Proof. intros H. destruct t; cbn in *; unfold int_val_ok in *; cbn in *; try contradiction; auto. Qed.

Lemma int_key_order big t x y :
  int_val_ok t x -> int_val_ok t y ->
  exists a b, encode_field big t (VNum x) false = Some a /\ encode_field big t (VNum y) false = Some b /\
    length a = length b /\ bcompare a b = (x ?= y).
Proof.
  intros Hx Hy. pose proof (int_val_value_ok _ _ Hx) as Vx. pose proof (int_val_value_ok _ _ Hy) as Vy.
  exists (fenc t (VNum x)), (fenc t (VNum y)).
  rewrite !encode_field_fenc by assumption. split; [reflexivity|]. split; [reflexivity|].
  split; [cbn [fenc]; rewrite !be_bytes_length; reflexivity|].
  pose proof (fenc_compare t (VNum x) (VNum y) [] [] Vx Vy) as E. rewrite !app_nil_r in E. rewrite E.
  unfold int_val_ok in Hx. destruct t; cbn [int_range] in Hx; try contradiction; cbn [value_compare];
  destruct (x ?= y); reflexivity.
Qed.

Lemma int_key_roundtrip big t x pre post :
  int_val_ok t x ->
  exists a, encode_field big t (VNum x) false = Some a /\
    decode_field big (pre ++ a ++ post) t (length pre) = DOk (VNum x, (length pre + length a)%nat) /\
    skip_field (pre ++ a ++ post) t (length pre) = DOk (length pre + length a)%nat.
Proof.
  intros Hx. pose proof (int_val_value_ok _ _ Hx) as Vx.
  exists (fenc t (VNum x)). rewrite encode_field_fenc by assumption. split; [reflexivity|].
  rewrite decode_fenc by assumption. cbn [norm fenc]. rewrite be_bytes_length.
  unfold int_val_ok in Hx. destruct t; cbn [int_range] in Hx; try contradiction; split; reflexivity.
Qed.

Lemma value_key_order big t v w s u :
  value_ok t v -> value_ok t w ->
  exists a b, encode_field big t v false = Some a /\ encode_field big t w false = Some b /\
    bcompare (a ++ s) (b ++ u) = match value_compare t v w with Eq => bcompare s u | c => c end.
Proof.
  intros Hv Hw. exists (fenc t v), (fenc t w). rewrite !encode_field_fenc by assumption.
  split; [reflexivity|]. split; [reflexivity|]. apply fenc_compare; assumption.
Qed.

Lemma value_key_roundtrip big t v pre post :
  value_ok t v ->
  exists a v', encode_field big t v false = Some a /\
    decode_field big (pre ++ a ++ post) t (length pre) = DOk (v', (length pre + length a)%nat) /\
    same_value t v v'.
Proof.
  intros Hv. exists (fenc t v), (norm t v). rewrite encode_field_fenc by assumption.
  split; [reflexivity|]. split; [apply decode_fenc; assumption|]. apply norm_same. assumption.
Qed.

(* an accepted key has at most 8 columns when some column is nullable *)
Lemma encode_key_limit big t fs pk r pre key full lp :
  encode_key big (make_index t fs pk) r pre (-1) lp = EOk key full ->
  existsb f_can_null fs = true -> (length fs <= 8)%nat.
Proof.
  unfold encode_key, make_index. cbn [ix_type ix_fields ix_has_nullable].
  intros H E. rewrite E in H. change (-1 =? -1) with true in H. cbv iota in H.
  destruct (Z.ltb_spec 8 (Z.of_nat (length fs))); [|lia].
  cbn [andb] in H. rewrite orb_true_r in H. destruct t; discriminate.
Qed.

Lemma primary_key_order big fs pk r1 r2 v1 v2 pre k1 k2 f1 f2 s1 s2 :
  row_has r1 fs v1 -> row_has r2 fs v2 ->
  encode_key big (make_index I_PRIMARY fs pk) r1 pre (-1) false = EOk k1 f1 ->
  encode_key big (make_index I_PRIMARY fs pk) r2 pre (-1) false = EOk k2 f2 ->
  bcompare (k1 ++ s1) (k2 ++ s2) =
  match tuple_compare (map f_type fs) v1 v2 with Eq => bcompare s1 s2 | c => c end.
Proof.
  intros H1 H2 E1 E2.
  pose proof (encode_key_limit _ _ _ _ _ _ _ _ _ E1) as L.
  rewrite (encode_key_primary big fs pk r1 v1 pre H1 L) in E1. injection E1 as <- _.
  rewrite (encode_key_primary big fs pk r2 v2 pre H2 L) in E2. injection E2 as <- _.
  rewrite <- !app_assoc, bcompare_app_same.
  apply tenc_compare; eapply row_has_ok; eassumption.
Qed.

Lemma primary_key_accepted big fs pk r vs pre :
  row_has r fs vs -> (length fs <= 8)%nat \/ existsb f_can_null fs = false ->
  exists key, encode_key big (make_index I_PRIMARY fs pk) r pre (-1) false = EOk key true.
Proof.
  intros H L. eexists. apply encode_key_primary with (vs := vs); [exact H|].
  intros E. destruct L; [assumption|congruence].
Qed.

Lemma cenc_compare ts a b s u :
  Forall2 (fun t o => forall v, o = Some v -> value_ok t v) ts a ->
  Forall2 (fun t o => forall v, o = Some v -> value_ok t v) ts b ->
  null_pattern_compare a b = Eq ->
  bcompare (cenc ts a ++ s) (cenc ts b ++ u) =
  match nonnull_compare ts a b with Eq => bcompare s u | c => c end.
Proof.
  intros Ha. revert b. induction Ha as [|t x ts a Hx Ha IH]; intros b Hb Hn; inversion Hb as [|? y ? b' Hy Hb']; subst; [reflexivity|].
  cbn [cenc nonnull_compare null_pattern_compare] in *.
  destruct x as [x|], y as [y|]; try discriminate.
  - rewrite <- !app_assoc. rewrite fenc_compare by (auto).
    destruct (value_compare t x y); [apply IH; assumption|reflexivity|reflexivity].
  - apply IH; assumption.
Qed.

Lemma row_ok_cols r fs : row_ok r fs ->
  Forall2 (fun t o => forall v, o = Some v -> value_ok t v) (map f_type fs) (map (col_value r) fs).
Proof.
  induction 1 as [|f fs [Ht Hf] _ IH]; cbn; constructor; auto.
  intros v E. eapply col_value_ok; eassumption.
Qed.

Lemma no_nullable_cols r fs : existsb f_can_null fs = false -> Forall (fun v => v <> None) (map (col_value r) fs).
Proof.
  induction fs as [|f fs IH]; cbn; intros E; constructor.
  - apply orb_false_iff in E. destruct E as [E _]. unfold col_value. rewrite E. destruct (r (f_pb_idx f)); congruence.
  - apply IH. apply orb_false_iff in E. apply E.
Qed.

Lemma no_null_pattern a : forall b, length a = length b ->
  Forall (fun v : option value => v <> None) a -> Forall (fun v => v <> None) b -> null_pattern_compare a b = Eq.
Proof.
  induction a as [|x a IH]; intros [|y b] L Ha Hb; cbn in *; try discriminate; [reflexivity|].
  inversion Ha; inversion Hb; subst. destruct x, y; try congruence. apply IH; auto.
Qed.

Lemma flag_compare r1 r2 fs :
  (existsb f_can_null fs = true -> (length fs <= 8)%nat) ->
  (pflag 0 (map (col_value r1) fs) ?= pflag 0 (map (col_value r2) fs)) =
  null_pattern_compare (map (col_value r1) fs) (map (col_value r2) fs).
Proof.
  intros L. destruct (existsb f_can_null fs) eqn:E.
  - apply pflag_compare; [rewrite !map_length; reflexivity|rewrite map_length; apply L; reflexivity].
  - pose proof (no_nullable_cols r1 fs E) as N1. pose proof (no_nullable_cols r2 fs E) as N2.
    rewrite !pflag_no_null by assumption. rewrite no_null_pattern; auto. rewrite !map_length. reflexivity.
Qed.

Lemma secondary_key_order big t fs pk r1 r2 pre k1 k2 f1 f2 s1 s2 :
  t = I_KEY \/ t = I_UNIQ -> row_ok r1 fs -> row_ok r2 fs ->
  encode_key big (make_index t fs pk) r1 pre (-1) false = EOk k1 f1 ->
  encode_key big (make_index t fs pk) r2 pre (-1) false = EOk k2 f2 ->
  bcompare (k1 ++ s1) (k2 ++ s2) =
  match index_compare (map f_type fs) (map (col_value r1) fs) (map (col_value r2) fs) with
  | Eq => bcompare s1 s2 | c => c end.
Proof.
  intros Ht H1 H2 E1 E2.
  pose proof (encode_key_limit _ _ _ _ _ _ _ _ _ E1) as L.
  destruct (encode_key_secondary big t fs pk r1 pre Ht H1 L) as (g1 & X1). rewrite X1 in E1. injection E1 as <- _.
  destruct (encode_key_secondary big t fs pk r2 pre Ht H2 L) as (g2 & X2). rewrite X2 in E2. injection E2 as <- _.
  rewrite <- !app_assoc, bcompare_app_same. cbn [app bcompare]. rewrite flag_compare by exact L.
  unfold index_compare. destruct (null_pattern_compare _ _) eqn:N; try reflexivity.
  apply cenc_compare; auto using row_ok_cols.
Qed.

Lemma secondary_key_accepted big t fs pk r pre :
  t = I_KEY \/ t = I_UNIQ -> row_ok r fs -> (length fs <= 8)%nat \/ existsb f_can_null fs = false ->
  exists key full, encode_key big (make_index t fs pk) r pre (-1) false = EOk key full.
Proof.
  intros Ht H L. destruct (encode_key_secondary big t fs pk r pre Ht H) as (f & E); [|eauto].
  intros E. destruct L; [assumption|congruence].
Qed.

Lemma comparison_inj big fs pk r1 r2 v1 v2 pre k1 k2 f1 f2 :
  row_has r1 fs v1 -> row_has r2 fs v2 ->
  encode_key big (make_index I_PRIMARY fs pk) r1 pre (-1) false = EOk k1 f1 ->
  encode_key big (make_index I_PRIMARY fs pk) r2 pre (-1) false = EOk k2 f2 ->
  k1 = k2 <-> tuple_compare (map f_type fs) v1 v2 = Eq.
Proof.
  intros H1 H2 E1 E2.
  pose proof (primary_key_order big fs pk r1 r2 v1 v2 pre k1 k2 f1 f2 [] [] H1 H2 E1 E2) as O.
  rewrite !app_nil_r in O. cbn [bcompare] in O. rewrite <- (bcompare_eq k1 k2), O.
  destruct (tuple_compare _ _ _); split; congruence.
Qed.

Lemma value_compare_eq t v w : is_float t = false -> value_ok t v -> value_ok t w ->
  value_compare t v w = Eq -> v = w.
Proof.
  intros F Hv Hw. destruct t, v, w; cbn in *; try contradiction; try discriminate;
  try (intros E; apply Z.compare_eq in E; congruence); intros E; apply bcompare_eq in E; congruence.
Qed.

Lemma value_compare_refl t v : value_compare t v v = Eq.
Proof. destruct t, v; cbn; auto using Z.compare_refl, bcompare_refl. Qed.

Lemma tuple_compare_eq ts a b :
  Forall (fun t => is_float t = false) ts -> Forall2 value_ok ts a -> Forall2 value_ok ts b ->
  tuple_compare ts a b = Eq <-> a = b.
Proof.
  intros F Ha. revert b F. induction Ha as [|t v ts a Hv Ha IH]; intros b F Hb; inversion Hb; subst.
  - split; auto.
  - inversion F; subst. cbn [tuple_compare]. split.
    + destruct (value_compare t v y) eqn:E; try discriminate. intros T.
      f_equal; [eapply value_compare_eq; eassumption|]. apply IH; assumption.
    + intros [= -> ->]. rewrite value_compare_refl. apply IH; auto.
Qed.

Lemma exact_inj big fs pk r1 r2 v1 v2 pre k1 k2 f1 f2 :
  row_has r1 fs v1 -> row_has r2 fs v2 -> Forall (fun f => is_float (f_type f) = false) fs ->
  encode_key big (make_index I_PRIMARY fs pk) r1 pre (-1) false = EOk k1 f1 ->
  encode_key big (make_index I_PRIMARY fs pk) r2 pre (-1) false = EOk k2 f2 ->
  k1 = k2 <-> v1 = v2.
Proof.
  intros H1 H2 F E1 E2. rewrite (comparison_inj big fs pk r1 r2 v1 v2 pre k1 k2 f1 f2 H1 H2 E1 E2).
  apply tuple_compare_eq; [|eapply row_has_ok; eassumption|eapply row_has_ok; eassumption].
  rewrite Forall_map. exact F.
Qed.

(* ---------- prefix scans ---------- *)
Lemma enc_loop_prefix big r fs vs f s : forall idx flag,
  row_has r fs vs -> f_type f = STRING -> r (f_pb_idx f) = Some (VStr s) ->
  encode_key_loop big I_PRIMARY r (fs ++ [f]) idx flag true = FOk (tenc (map f_type fs) vs ++ s) flag.
Proof.
  intros idx flag Hr Ht Hs. revert idx. induction Hr as [|g v fs vs [Hv Hok] Hr IH]; intros idx.
  - cbn [app encode_key_loop map tenc]. unfold encode_key_col. rewrite Hs, Ht. cbn. rewrite app_nil_r. reflexivity.
  - assert (N : match fs ++ [f] with [] => true | _ => false end = false) by (destruct fs; reflexivity).
    cbn [app encode_key_loop map tenc]. rewrite N. cbn [andb]. unfold encode_key_col. rewrite Hv.
    rewrite encode_field_fenc by exact Hok. cbv iota. rewrite IH. rewrite app_assoc. reflexivity.
Qed.

Lemma row_has_app r fs gs vs : row_has r (fs ++ gs) vs ->
  exists a b, vs = a ++ b /\ row_has r fs a /\ row_has r gs b.
Proof.
  intros H. apply Forall2_app_inv_l in H. destruct H as (a & b & Ha & Hb & ->). exists a, b. auto.
Qed.

Lemma tenc_app ts us a b : length ts = length a -> tenc (ts ++ us) (a ++ b) = tenc ts a ++ tenc us b.
Proof.
  revert a. induction ts as [|t ts IH]; intros [|v a] H; cbn in *; try discriminate; [reflexivity|].
  rewrite IH by lia. rewrite app_assoc. reflexivity.
Qed.

Lemma nul_prefix p s t : no_nul p -> no_nul s -> is_prefix p (s ++ 0 :: t) <-> is_prefix p s.
Proof.
  intros Hp. revert s. induction Hp as [|b p Hb Hp IH]; intros s Hs.
  - split; intros _; eexists; reflexivity.
  - destruct Hs as [|c s Hc Hs].
    + split; intros [x E]; cbn in E; [injection E; lia|discriminate].
    + split.
      * intros [x E]. cbn in E. injection E as -> E. destruct (proj1 (IH s Hs) (ex_intro _ x E)) as [y ->].
        exists y. reflexivity.
      * intros [x E]. cbn in E. injection E as -> E. destruct (proj2 (IH s Hs) (ex_intro _ x E)) as [y Ey].
        exists y. cbn. rewrite Ey. reflexivity.
Qed.

Lemma prefix_scan big fs f rest pk rp r vp p vs kp k fp fk :
  let all := fs ++ f :: rest in
  Z.of_nat (length all) < 2 ^ 32 -> f_type f = STRING ->
  row_has rp fs vp -> rp (f_pb_idx f) = Some (VStr p) -> no_nul p ->
  row_has r all vs ->
  encode_key big (make_index I_PRIMARY all pk) rp [] (Z.of_nat (length fs + 1)) true = EOk kp fp ->
  encode_key big (make_index I_PRIMARY all pk) r [] (-1) false = EOk k fk ->
  is_prefix kp k <->
  (exists a s b, vs = a ++ VStr s :: b /\ length a = length fs /\
     tuple_compare (map f_type fs) vp a = Eq /\ is_prefix p s).
Proof.
  intros all Lim Ht Hrp Hp Np Hr Ep Ek.
  assert (Lall : length all = (length fs + 1 + length rest)%nat) by (unfold all; rewrite app_length; cbn; lia).
  pose proof (encode_key_limit _ _ _ _ _ _ _ _ _ Ek) as L.
  rewrite (encode_key_primary big all pk r vs [] Hr L) in Ek. injection Ek as <- _. cbn [app].
  assert (Ekp : kp = tenc (map f_type fs) vp ++ p).
  { revert Ep. unfold encode_key, make_index. cbn [ix_type ix_fields ix_has_nullable].
    destruct (Z.eqb_spec (Z.of_nat (length fs + 1)) (-1)); [lia|].
    rewrite (Z.mod_small (Z.of_nat (length fs + 1))) by lia.
    destruct ((Z.of_nat (length all) <? Z.of_nat (length fs + 1)) || _) eqn:G; [discriminate|].
    rewrite Nat2Z.id.
    replace (firstn (length fs + 1) all) with (fs ++ [f]).
    2:{ unfold all. rewrite firstn_app. rewrite firstn_all2 by lia. f_equal.
        replace (length fs + 1 - length fs)%nat with 1%nat by lia. reflexivity. }
    rewrite enc_loop_prefix with (vs := vp) (s := p) by assumption. intros [= <- _]. reflexivity. }
  subst kp. unfold all in Hr. apply row_has_app in Hr. destruct Hr as (a & b & -> & Ha & Hb).
  inversion Hb as [|? v ? b' [Hv Hok] Hb']; subst. rewrite Ht in Hok.
  destruct v as [z|s]; [cbn in Hok; contradiction|]. cbn in Hok.
  unfold all. rewrite map_app. cbn [map].
  pose proof (row_has_length _ _ _ Ha) as La. pose proof (row_has_length _ _ _ Hrp) as Lp.
  rewrite tenc_app by (rewrite map_length; exact La). cbn [tenc]. rewrite Ht. cbn [fenc]. rewrite <- (app_assoc s). cbn [app].
  set (tl := tenc (map f_type rest) b').
  pose proof (row_has_ok _ _ _ Ha) as Oa. pose proof (row_has_ok _ _ _ Hrp) as Op.
  split.
  - intros [x E]. exists a, s, b'. split; [reflexivity|]. split; [lia|].
    rewrite <- app_assoc in E.
    pose proof (tenc_compare (map f_type fs) vp a (p ++ x) (s ++ 0 :: tl) Op Oa) as C.
    rewrite <- E, bcompare_refl in C.
    destruct (tuple_compare (map f_type fs) vp a); try discriminate. split; [reflexivity|].
    symmetry in C. apply bcompare_eq in C. apply (nul_prefix p s tl Np Hok). exists x. congruence.
  - intros (a2 & s2 & b2 & E & La2 & C & P).
    assert (a2 = a /\ s2 = s).
    { apply app_eq_app in E. destruct E as [l [[E1 E2]|[E1 E2]]].
      - assert (l = []) by (apply (f_equal (@length _)) in E1; rewrite app_length in E1; destruct l; cbn in *; [reflexivity|lia]).
        subst l. rewrite app_nil_r in E1. cbn in E2. injection E2 as -> _. auto.
      - assert (l = []) by (apply (f_equal (@length _)) in E1; rewrite app_length in E1; destruct l; cbn in *; [reflexivity|lia]).
        subst l. rewrite app_nil_r in E1. cbn in E2. injection E2 as -> _. auto. }
    destruct H as [-> ->].
    pose proof (tenc_compare (map f_type fs) vp a [] [] Op Oa) as C2. rewrite C in C2. cbn [bcompare] in C2.
    rewrite !app_nil_r in C2. apply bcompare_eq in C2. rewrite C2.
    apply (nul_prefix p s tl Np Hok) in P. destruct P as [x ->]. exists x. apply app_assoc.
Qed.

(* ---------- round trips ---------- *)
Lemma row_has_row_ok r fs vs : row_has r fs vs -> row_ok r fs.
Proof.
  induction 1 as [|f v fs vs [Hv Hok] _ IH]; constructor; auto. split.
  - intros E. rewrite E in Hok. destruct v; contradiction.
  - intros w Hw. congruence.
Qed.

Lemma row_has_cols r fs vs : row_has r fs vs -> map (col_value r) fs = map Some vs.
Proof. induction 1 as [|f v fs vs [Hv _] _ IH]; cbn; [reflexivity|]. rewrite IH. unfold col_value. rewrite Hv. reflexivity. Qed.

Lemma tenc_cenc ts vs : tenc ts vs = cenc ts (map Some vs).
Proof. revert vs. induction ts as [|t ts IH]; intros [|v vs]; cbn; try reflexivity. rewrite IH. reflexivity. Qed.

Lemma pflag_Some vs : forall idx, pflag idx (map Some vs) = 0.
Proof. intros. apply pflag_no_null. rewrite Forall_map. apply Forall_forall. congruence. Qed.

Lemma key_roundtrip oversh big t fs pk r r0 pre post key full :
  t = I_PRIMARY /\ (exists vs, row_has r fs vs) \/ (t = I_KEY \/ t = I_UNIQ) ->
  oversh 0 = Some 0 -> row_ok r fs -> distinct_cols fs ->
  encode_key big (make_index t fs pk) r pre (-1) false = EOk key full ->
  exists r', decode_key oversh big (make_index t fs pk) (key ++ post) r0 (length pre) = DOk (r', length key) /\
    Forall (decoded_col r r0 r') fs /\ (forall i, ~ In i (map f_pb_idx fs) -> r' i = r0 i).
Proof.
  intros Ht Ho Hr Hd Ek. pose proof (encode_key_limit _ _ _ _ _ _ _ _ _ Ek) as L.
  assert (Hz : (0 + length fs <= 8)%nat \/ 0 * 2 ^ (8 - Z.of_nat 0) + pflag 0 (map (col_value r) fs) = 0).
  { destruct (existsb f_can_null fs) eqn:E; [left; specialize (L eq_refl); lia|].
    right. rewrite pflag_no_null by (apply no_nullable_cols; exact E). lia. }
  destruct Ht as [[-> [vs Hvs]]|Ht].
  - rewrite (encode_key_primary big fs pk r vs pre Hvs L) in Ek. injection Ek as <- _.
    assert (P0 : pflag 0 (map (col_value r) fs) = 0) by (rewrite (row_has_cols _ _ _ Hvs); apply pflag_Some).
    destruct (dec_loop oversh big r fs 0 0 pre post r0 Ho Hr Hd) as (r' & E & D & O); [exact L|exact Hz|].
    rewrite P0, Z.mul_0_l in E. cbn [Z.add] in E.
    exists r'. unfold decode_key, make_index. cbn [ix_type ix_fields has_null_flag].
    rewrite tenc_cenc, <- (row_has_cols _ _ _ Hvs). rewrite app_length, <- app_assoc. rewrite E. auto.
  - destruct (encode_key_secondary big t fs pk r pre Ht Hr L) as (g & X). rewrite X in Ek. injection Ek as <- _.
    set (fl := pflag 0 (map (col_value r) fs)) in *.
    assert (Bf : 0 <= fl < 256).
    { destruct (existsb f_can_null fs) eqn:E.
      - pose proof (pflag_bound (map (col_value r) fs) 0) as B. rewrite map_length in B. specialize (B (L eq_refl)).
        change (2 ^ (8 - Z.of_nat 0)) with 256 in B. exact B.
      - unfold fl. rewrite pflag_no_null by (apply no_nullable_cols; exact E). lia. }
    destruct (dec_loop oversh big r fs 0 0 (pre ++ [fl]) post r0 Ho Hr Hd) as (r' & E & D & O); [exact L|exact Hz|].
    rewrite Z.mul_0_l in E. cbn [Z.add] in E. fold fl in E.
    exists r'. split; [|auto].
    assert (X8 : extract_u8 big ((pre ++ [fl] ++ cenc (map f_type fs) (map (col_value r) fs)) ++ post) (length pre) = Some fl).
    { unfold extract_u8, extract_word. rewrite <- !app_assoc. rewrite peek_mid by reflexivity.
      f_equal. destruct big; cbn; lia. }
    rewrite app_length in E. cbn [length] in E.
    assert (G : decode_key_loop oversh big ((pre ++ [fl] ++ cenc (map f_type fs) (map (col_value r) fs)) ++ post) fl fs 0 r0 (length pre + 1)
       = DOk (r', length (pre ++ [fl] ++ cenc (map f_type fs) (map (col_value r) fs)))).
    { rewrite <- !app_assoc in *. cbn [app] in *. rewrite E. rewrite !app_length. cbn [length]. do 2 f_equal. lia. }
    destruct Ht as [->| ->]; unfold decode_key, make_index; cbn [ix_type ix_fields has_null_flag]; cbn [app] in X8, G; rewrite X8; exact G.
Qed.

(* primary key columns stored after a secondary index *)
Lemma pk_enc big r fs vs : row_has r fs vs -> encode_pk_loop big r fs = FOk (tenc (map f_type fs) vs) 0.
Proof.
  induction 1 as [|f v fs vs [Hv Hok] _ IH]; cbn; [reflexivity|]. rewrite Hv, encode_field_fenc by exact Hok. rewrite IH. reflexivity.
Qed.

Lemma pk_dec big r fs vs : row_has r fs vs -> distinct_cols fs -> forall pre post r0,
  exists r', decode_pk_loop big (pre ++ tenc (map f_type fs) vs ++ post) fs r0 (length pre) =
     DOk (r', (length pre + length (tenc (map f_type fs) vs))%nat) /\
     Forall (decoded_col r r0 r') fs /\ (forall i, ~ In i (map f_pb_idx fs) -> r' i = r0 i).
Proof.
  induction 1 as [|f v fs vs [Hv Hok] Hr IH]; intros Hd pre post r0; cbn [map tenc decode_pk_loop].
  - exists r0. cbn. rewrite Nat.add_0_r. auto.
  - inversion Hd as [|? ? Hnin Hd']; subst. rewrite <- app_assoc. rewrite decode_fenc by exact Hok.
    replace (length pre + length (fenc (f_type f) v))%nat with (length (pre ++ fenc (f_type f) v)) by apply app_length.
    rewrite app_assoc.
    destruct (IH Hd' (pre ++ fenc (f_type f) v) post (set_field r0 (f_pb_idx f) (norm (f_type f) v))) as (r' & -> & D & O).
    exists r'. rewrite !app_length. split; [do 2 f_equal; lia|]. split.
    + constructor.
      * unfold decoded_col, col_value. rewrite Hv. exists (norm (f_type f) v). split; [|apply norm_same; exact Hok].
        rewrite O by exact Hnin. apply set_field_same.
      * rewrite Forall_forall in *. intros g Hg. specialize (D g Hg). unfold decoded_col in *.
        destruct (col_value r g); [exact D|]. rewrite D. apply set_field_other.
        intros E. apply Hnin. rewrite <- E. apply in_map. exact Hg.
    + intros i Hi. rewrite O by (intros X; apply Hi; right; exact X).
      apply set_field_other. intros ->. apply Hi. left. reflexivity.
Qed.

Lemma pk_suffix_roundtrip big t fs pk vs r r0 key key' full' post :
  t = I_KEY \/ t = I_UNIQ -> row_has r pk vs -> distinct_cols pk ->
  encode_primary_key big (make_index t fs pk) r key = EOk key' full' ->
  exists r', decode_primary_key big (make_index t fs pk) (key' ++ post) r0 (length key) = DOk (r', length key') /\
    Forall (decoded_col r r0 r') pk /\ (forall i, ~ In i (map f_pb_idx pk) -> r' i = r0 i).
Proof.
  intros Ht Hr Hd E. unfold encode_primary_key, make_index in E. cbn [ix_type ix_pk_fields] in E.
  rewrite (pk_enc big r pk vs Hr) in E.
  assert (E' : key' = key ++ tenc (map f_type pk) vs) by (destruct Ht as [->| ->]; injection E as <- _; reflexivity).
  subst key'. destruct (pk_dec big r pk vs Hr Hd key post r0) as (r' & D & F & O).
  exists r'. split; [|auto]. unfold decode_primary_key, make_index. cbn [ix_type ix_pk_fields].
  rewrite <- app_assoc, app_length. destruct Ht as [->| ->]; exact D.
Qed.

(* ---------- bounds safety ---------- *)
Lemma peek_some key pos n : (pos + n <= length key)%nat -> exists s, peek key pos n = Some s.
Proof. intros H. unfold peek. destruct (Nat.leb_spec (pos + n) (length key)); [eauto|lia]. Qed.

Lemma cstring_safe s p : s = p ++ [0] -> exists x, cstring s = Some x.
Proof.
  revert s. induction p as [|b p IH]; intros s ->; cbn; [eauto|].
  destruct (b =? 0); [eauto|]. destruct (IH _ eq_refl) as [x ->]. cbn. eauto.
Qed.

Lemma skipn_last (key : list Z) pos p : key = p ++ [0] -> (pos < length key)%nat -> exists q, skipn pos key = q ++ [0].
Proof.
  intros -> H. rewrite app_length in H. cbn in H. exists (skipn pos p).
  rewrite skipn_app. replace (pos - length p)%nat with 0%nat by lia. reflexivity.
Qed.

Lemma fixed_safe2 key pos n (x : option Z) :
  ((pos + n <= length key)%nat -> x <> None) -> fixed key pos n x <> DOob.
Proof.
  intros H. unfold fixed. destruct (Nat.ltb_spec (length key) (pos + n)); [discriminate|].
  destruct x; [discriminate|]. exfalso. apply H; [lia|reflexivity].
Qed.

Lemma decode_field_safe big key t pos :
  t <> STRING \/ (exists p, key = p ++ [0]) -> decode_field big key t pos <> DOob.
Proof.
  intros H. destruct t; cbn [decode_field]; try discriminate;
  try (apply fixed_safe2; intros Hl;
       unfold extract_i8, extract_i16, extract_i32, extract_i64, extract_u8, extract_u16, extract_u32, extract_u64,
         extract_float, extract_double, extract_boolean, extract_word;
       destruct (peek_some key pos _ Hl) as [s ->]; discriminate).
  destruct H as [H|[p Hp]]; [congruence|].
  destruct (Nat.leb_spec (length key) pos); [discriminate|].
  destruct (skipn_last key pos p Hp ltac:(lia)) as [q Hq].
  unfold extract_string. destruct (cstring_safe (skipn pos key) q Hq) as [x ->]. discriminate.
Qed.

Lemma decode_loop_safe oversh big key flag fs : forall idx r pos,
  Forall (fun f => f_type f <> STRING) fs \/ (exists p, key = p ++ [0]) ->
  decode_key_loop oversh big key flag fs idx r pos <> DOob.
Proof.
  induction fs as [|f fs IH]; intros idx r pos H; cbn [decode_key_loop]; [discriminate|].
  assert (H1 : f_type f <> STRING \/ (exists p, key = p ++ [0])) by (destruct H as [H|H]; [inversion H; auto|auto]).
  assert (H2 : Forall (fun f => f_type f <> STRING) fs \/ (exists p, key = p ++ [0])) by (destruct H as [H|H]; [inversion H; auto|auto]).
  destruct (null_bit oversh flag idx) as [b|]; [|discriminate].
  destruct (b && f_can_null f); [apply IH; exact H2|].
  pose proof (decode_field_safe big key (f_type f) pos H1) as S.
  destruct (decode_field big key (f_type f) pos) as [[v p]| | |]; try discriminate; [apply IH; exact H2|congruence].
Qed.

Lemma decode_key_safe oversh big ix key r pos :
  Forall (fun f => f_type f <> STRING) (ix_fields ix) \/ (exists p, key = p ++ [0]) ->
  (has_null_flag (ix_type ix) = true -> (pos < length key)%nat) ->
  decode_key oversh big ix key r pos <> DOob.
Proof.
  intros H Hp. unfold decode_key.
  assert (G : (if has_null_flag (ix_type ix)
      then match extract_u8 big key pos with
           | None => DOob
           | Some flag => decode_key_loop oversh big key flag (ix_fields ix) 0 r (pos + 1)
           end
      else decode_key_loop oversh big key 0 (ix_fields ix) 0 r pos) <> DOob).
  { destruct (has_null_flag (ix_type ix)) eqn:E; [|apply decode_loop_safe; exact H].
    specialize (Hp eq_refl). unfold extract_u8, extract_word.
    destruct (peek_some key pos 1 ltac:(lia)) as [s ->]. apply decode_loop_safe. exact H. }
  destruct (ix_type ix); try exact G. discriminate.
Qed.

Lemma decode_loop_no_ub oversh big key flag fs : forall idx r pos,
  (idx + length fs <= 8)%nat -> decode_key_loop oversh big key flag fs idx r pos <> DUb.
Proof.
  induction fs as [|f fs IH]; intros idx r pos H; cbn [decode_key_loop length] in *; [discriminate|].
  unfold null_bit. destruct (Z.ltb_spec 7 (Z.of_nat idx)); [lia|].
  destruct (Z.odd _ && f_can_null f); [apply IH; lia|].
  assert (S : decode_field big key (f_type f) pos <> DUb).
  { destruct (f_type f); cbn [decode_field]; unfold fixed;
    repeat match goal with |- context [if ?b then _ else _] => destruct b end; try discriminate;
    repeat match goal with |- context [match ?b with Some _ => _ | None => _ end] => destruct b end; discriminate. }
  destruct (decode_field big key (f_type f) pos) as [[v p]| | |]; try discriminate; [apply IH; lia|congruence].
Qed.

Lemma decode_key_no_ub oversh big ix key r pos :
  (length (ix_fields ix) <= 8)%nat -> decode_key oversh big ix key r pos <> DUb.
Proof.
  intros H. unfold decode_key.
  assert (G : (if has_null_flag (ix_type ix)
      then match extract_u8 big key pos with
           | None => DOob
           | Some flag => decode_key_loop oversh big key flag (ix_fields ix) 0 r (pos + 1)
           end
      else decode_key_loop oversh big key 0 (ix_fields ix) 0 r pos) <> DUb).
  { destruct (has_null_flag (ix_type ix)); [|apply decode_loop_no_ub; exact H].
    destruct (extract_u8 big key pos); [|discriminate]. apply decode_loop_no_ub. exact H. }
  destruct (ix_type ix); try exact G. discriminate.
Qed.

(* ---------- region bounds ---------- *)
Lemma end_key_is_bound a b : end_key_compare a b = bound_compare (bound_of a) (bound_of b).
Proof.
  unfold end_key_compare. destruct (bcompare a b) eqn:E.
  - apply bcompare_eq in E. subst b. destruct a; cbn; [reflexivity|]. rewrite Z.compare_refl. symmetry. apply bcompare_refl.
  - destruct a, b; cbn in *; try discriminate; auto.
  - destruct a, b; cbn in *; try discriminate; auto.
Qed.

Lemma bound_trans a b c : bound_compare a b = Lt -> bound_compare b c = Lt -> bound_compare a c = Lt.
Proof. destruct a, b, c; cbn; try discriminate; auto. apply bcompare_lt_trans. Qed.

Lemma end_key_total a b c :
  (end_key_compare a b = Eq <-> a = b) /\
  end_key_compare b a = CompOpp (end_key_compare a b) /\
  (end_key_compare a b = Lt -> end_key_compare b c = Lt -> end_key_compare a c = Lt) /\
  end_key_compare a [] <> Gt.
Proof.
  rewrite !end_key_is_bound. repeat split.
  - destruct a, b; cbn; try discriminate; auto. intros E.
    apply (bcompare_eq (z :: a) (z0 :: b)). exact E.
  - intros ->. destruct b; cbn; auto. rewrite Z.compare_refl. apply bcompare_refl.
  - destruct a as [|x a], b as [|y b]; try reflexivity. apply bcompare_antisym.
  - apply bound_trans.
  - destruct a; cbn; discriminate.
Qed.
