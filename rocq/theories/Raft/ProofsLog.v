From Verif.Raft Require Import Model Spec ProofsTerm ProofsKeys.
Local Open Scope Z_scope.

Section Log.
Variable big : bool.
Variable c : codec.
Hypothesis CO : codec_ok c.

Definition ref_of (s : slog) : tref := mk_tref (l_first s) (l_prev s) (map e_term (l_ents s)).
Record good (b : bool) (s : slog) : Prop := {
  g_first : 1 <= l_first s < 2 ^ 63;
  g_last : l_last s < 2 ^ 63;
  g_prev : 0 <= l_prev s;
  g_cons : consecutive (l_first s) (l_ents s);
  g_mono : terms_from (l_prev s) (l_ents s);
  g_ok : Forall (entry_ok c b) (l_ents s)
}.
Definition dv (d : disk) (r i : Z) := kget (data_key big r i) (db d).
Definition mv (d : disk) (r : Z) := kget (meta_key big r) (db d).
Record RD (b : bool) (d : disk) (r : Z) (s : slog) (clean : bool) : Prop := {
  rd_meta : mv d r = Some (int64_bytes big (l_first s));
  rd_ent : forall j e, nth_error (l_ents s) j = Some e ->
    exists v ob, build_value c b big e = Some (v, ob) /\ dv d r (l_first s + Z.of_nat j) = Some v;
  rd_above : forall i, i64 i -> l_last s < i -> dv d r i = None;
  rd_below : clean = true -> forall i, i64 i -> i < l_first s -> dv d r i = None
}.
Record MemOk (m : mem) (s : slog) : Prop := {
  mo_first : m_first m = l_first s;
  mo_last : m_last m = l_last s;
  mo_tm : TM (m_tmap m) (ref_of s)
}.
Lemma RD_weak b d r s cl : RD b d r s cl -> RD b d r s false.
Proof. intros [A B C D]. constructor; auto. discriminate. Qed.

(* ---- lists of entries ---- *)
Lemma terms_mono p es : terms_from p es <-> mono p (map e_term es).
Proof. revert p. induction es as [|e es IH]; intros p; cbn; [tauto|]. rewrite IH. tauto. Qed.
Lemma consec_app i a b' : consecutive i (a ++ b') <-> consecutive i a /\ consecutive (i + Z.of_nat (length a)) b'.
Proof.
  revert i. induction a as [|e a IH]; intros i.
  - cbn [app consecutive length Z.of_nat]. rewrite Z.add_0_r. tauto.
  - cbn [app consecutive length]. rewrite IH. replace (i + 1 + Z.of_nat (length a)) with (i + Z.of_nat (S (length a))) by lia. tauto.
Qed.
Lemma consec_nth i es : consecutive i es -> forall j e, nth_error es j = Some e -> e_index e = i + Z.of_nat j.
Proof.
  revert i. induction es as [|a es IH]; intros i H [|j] e E; cbn in E; try discriminate.
  - inversion E; subst. destruct H. cbn. lia.
  - destruct H as [_ H]. rewrite (IH _ H _ _ E). lia.
Qed.
Lemma last_term_app p a b' : last_term p (a ++ b') = last_term (last_term p a) b'.
Proof.
  unfold last_term. rewrite map_app. revert p. induction (map e_term a) as [|t l IH]; intros p; auto.
  cbn [app]. rewrite !last_cons_d. apply IH.
Qed.
Lemma last_term_ge p es : terms_from p es -> p <= last_term p es.
Proof. intros H. apply terms_mono in H. apply mono_last; auto. Qed.
Lemma l_last_len s : l_last s = l_first s + Z.of_nat (length (l_ents s)) - 1. Proof. reflexivity. Qed.

Lemma good_append b s es : good b s -> legal_op c b s (RAppend es) -> good b (spec_op s (RAppend es)).
Proof.
  intros [F L P C M O] (L1 & L2 & L3 & L4). cbn [spec_op]. unfold l_last in *. constructor; unfold l_last; cbn [l_first l_prev l_ents]; auto.
  - rewrite app_length. lia.
  - apply consec_app. split; auto. replace (l_first s + Z.of_nat (length (l_ents s))) with (l_first s + Z.of_nat (length (l_ents s)) - 1 + 1) by lia. auto.
  - apply terms_mono. rewrite map_app. apply mono_app. split; [apply terms_mono; auto|]. apply terms_mono. auto.
  - apply Forall_app. auto.
Qed.
Lemma good_prefix b s k dr : good b s -> k < 2 ^ 63 -> good b (spec_op s (RTruncPrefix k dr)).
Proof.
  intros G Hk. cbn [spec_op]. destruct (Z.leb_spec k (l_first s)); auto. destruct G as [F L P C M O].
  set (n := Z.to_nat (k - l_first s)).
  assert (M' : terms_from (l_prev s) (firstn n (l_ents s)) /\ terms_from (last_term (l_prev s) (firstn n (l_ents s))) (skipn n (l_ents s))).
  { rewrite <- (firstn_skipn n (l_ents s)) in M. apply terms_mono in M. rewrite map_app in M. apply mono_app in M.
    rewrite !terms_mono. exact M. }
  constructor; unfold l_last in *; cbn [l_first l_prev l_ents].
  - lia.
  - rewrite skipn_length. lia.
  - pose proof (last_term_ge _ _ (proj1 M')). lia.
  - rewrite <- (firstn_skipn n (l_ents s)) in C. apply consec_app in C. destruct C as [_ C]. rewrite firstn_length in C.
    destruct (Nat.le_gt_cases n (length (l_ents s))).
    + rewrite Nat.min_l in C by auto. replace k with (l_first s + Z.of_nat n) by lia. auto.
    + rewrite skipn_all2 by lia. exact I.
  - tauto.
  - rewrite <- (firstn_skipn n (l_ents s)) in O. apply Forall_app in O. tauto.
Qed.
Lemma good_suffix b s k : good b s -> l_first s - 1 <= k -> good b (spec_op s (RTruncSuffix k)).
Proof.
  intros G Hk. cbn [spec_op]. destruct (Z.leb_spec (l_last s) k); auto. destruct G as [F L P C M O].
  set (n := Z.to_nat (k + 1 - l_first s)). unfold l_last in *.
  constructor; unfold l_last; cbn [l_first l_prev l_ents]; auto.
  - rewrite firstn_length. lia.
  - rewrite <- (firstn_skipn n (l_ents s)) in C. apply consec_app in C. tauto.
  - apply terms_mono. apply terms_mono in M. rewrite <- (firstn_skipn n (l_ents s)) in M. rewrite map_app in M. apply mono_app in M. tauto.
  - rewrite <- (firstn_skipn n (l_ents s)) in O. apply Forall_app in O. tauto.
Qed.
Lemma good_empty b n : 1 <= n < 2 ^ 63 -> good b (mk_slog n 0 []).
Proof. intros H. constructor; unfold l_last; cbn [l_first l_prev l_ents length consecutive terms_from]; auto; lia. Qed.

(* ---- writes of one region touch only that region ---- *)
Definition own_key (r : Z) (k : list Z) : Prop := k = meta_key big r \/ exists i, i64 i /\ k = data_key big r i.
Definition write_ok (r : Z) (w : write) : Prop :=
  match w with
  | WPut a _ => forall k v, In (k, v) a -> own_key r k
  | WDel ks => forall k, In k ks -> own_key r k
  | WDelFiles a b _ | WDelRange a b => exists x y, i64 x /\ i64 y /\ a = data_key big r x /\ b = data_key big r y
  end.
Lemma puts_sorted l : forall s, ksorted s -> ksorted (puts l s).
Proof. induction l as [|[k v] l IH]; intros s H; cbn; auto. apply IH. apply kput_sorted. auto. Qed.
Lemma puts_other k l : (forall k' v, In (k', v) l -> beqb k k' = false) -> forall s, ksorted s -> kget k (puts l s) = kget k s.
Proof.
  induction l as [|[k' v] l IH]; intros H s HS; cbn; auto. unfold puts in IH. rewrite IH; [|intros; eapply H; right; eauto|apply kput_sorted; auto].
  rewrite kget_put by auto. rewrite (H k' v) by (left; auto). auto.
Qed.
Lemma kput_in {V} (k : list Z) (v : V) s e : In e (kput k v s) -> e = (k, v) \/ In e s.
Proof.
  induction s as [|[k' v'] s IH]; cbn; [intuition|]. destruct (bcompare k k'); cbn; intuition.
Qed.
Lemma puts_in l : forall s e, In e (puts l s) -> In e l \/ In e s.
Proof.
  induction l as [|[k v] l IH]; intros s e H; cbn in *; auto. apply IH in H. destruct H as [H|H]; auto.
  apply kput_in in H. destruct H; subst; auto.
Qed.
Record frame (d d' : disk) (r : Z) : Prop := {
  fr_sorted : ksorted (db d');
  fr_data : forall r' i, i64 r' -> i64 i -> r' <> r -> dv d' r' i = dv d r' i;
  fr_meta : forall r', i64 r' -> r' <> r -> mv d' r' = mv d r';
  fr_keys : forall k v, In (k, v) (db d') -> (exists v', In (k, v') (db d)) \/ own_key r k
}.
Lemma own_data_neq r k r' i : i64 r -> own_key r k -> i64 r' -> i64 i -> r' <> r -> beqb (data_key big r' i) k = false.
Proof.
  intros Hr [->|(j & Hj & ->)] H1 H2 N; [apply data_meta_eqb; auto|]. rewrite data_eqb by auto. destruct (Z.eqb_spec r' r); [lia|reflexivity].
Qed.
Lemma own_meta_neq r k r' : i64 r -> own_key r k -> i64 r' -> r' <> r -> beqb (meta_key big r') k = false.
Proof.
  intros Hr [->|(j & Hj & ->)] H1 N; [|apply meta_data_eqb; auto]. rewrite meta_eqb by auto. destruct (Z.eqb_spec r' r); [lia|reflexivity].
Qed.
Lemma mem_key_in k l : mem_key k l = true <-> In k l.
Proof.
  unfold mem_key. rewrite existsb_exists. split.
  - intros (x & I & E). apply beqb_eq in E. subst. auto.
  - intros I. exists k. split; auto. apply beqb_eq. auto.
Qed.
Lemma frame_filter d r f b' : i64 r -> ksorted (db d) ->
  (forall r' i, i64 r' -> i64 i -> r' <> r -> f (data_key big r' i) = true) ->
  (forall r', i64 r' -> r' <> r -> f (meta_key big r') = true) ->
  frame d (mk_disk (kfilter f (db d)) b') r.
Proof.
  intros Hr HS F1 F2. constructor; unfold dv, mv; cbn [db].
  - apply kfilter_sorted. auto.
  - intros. rewrite kget_filter, F1 by auto. auto.
  - intros. rewrite kget_filter, F2 by auto. auto.
  - intros k v I. apply filter_In in I. left. exists v. tauto.
Qed.
Lemma frame_write d r w : i64 r -> ksorted (db d) -> write_ok r w -> frame d (do_write d w) r.
Proof.
  intros Hr HS W. destruct w as [a b|ks|a b dr|a b]; cbn [write_ok do_write] in *.
  - constructor; unfold dv, mv; cbn [db].
    + apply puts_sorted. auto.
    + intros. apply puts_other; auto. intros k' v I. apply own_data_neq with (r := r); eauto.
    + intros. apply puts_other; auto. intros k' v I. apply own_meta_neq with (r := r); eauto.
    + intros k v I. apply puts_in in I. destruct I; eauto.
  - apply frame_filter; auto; intros; apply Bool.negb_true_iff; apply Bool.not_true_is_false; intros E; apply mem_key_in in E.
    + pose proof (own_data_neq r _ r' i Hr (W _ E)). rewrite (proj2 (beqb_eq _ _) eq_refl) in H2. discriminate H2; auto.
    + pose proof (own_meta_neq r _ r' Hr (W _ E)). rewrite (proj2 (beqb_eq _ _) eq_refl) in H1. discriminate H1; auto.
  - destruct W as (x & y & Hx & Hy & -> & ->). apply frame_filter; auto; intros.
    + rewrite data_in_range by auto. destruct (Z.eqb_spec r r'); [lia|]. reflexivity.
    + rewrite meta_not_in_range by auto. reflexivity.
  - destruct W as (x & y & Hx & Hy & -> & ->). apply frame_filter; auto; intros.
    + rewrite data_in_range by auto. destruct (Z.eqb_spec r r'); [lia|]. reflexivity.
    + rewrite meta_not_in_range by auto. reflexivity.
Qed.
Lemma frame_refl d r : ksorted (db d) -> frame d d r.
Proof. intros. constructor; eauto. Qed.
Lemma frame_writes r : i64 r -> forall ws d, ksorted (db d) -> Forall (write_ok r) ws -> frame d (do_writes d ws) r.
Proof.
  intros Hr. induction ws as [|w ws IH]; intros d HS W; cbn; [apply frame_refl; auto|]. inversion W; subst.
  pose proof (frame_write d r w Hr HS H1) as F1. specialize (IH _ (fr_sorted _ _ _ F1) H2). unfold do_writes in *. destruct F1 as [A1 B1 C1 D1], IH as [A2 B2 C2 D2].
  constructor; auto.
  - intros. rewrite B2, B1 by auto. auto.
  - intros. rewrite C2, C1 by auto. auto.
  - intros k v I. destruct (D2 _ _ I) as [(v' & I')|O]; auto. eauto.
Qed.

(* ---- effect on the region itself ---- *)
Lemma RD_ext b d d' r s cl : RD b d r s cl -> mv d' r = mv d r -> (forall i, i64 i -> dv d' r i = dv d r i) ->
  good b s -> RD b d' r s cl.
Proof.
  intros [A B C D] M E G. constructor; intros.
  - congruence.
  - destruct (B _ _ H) as (v & ob & H1 & H2). exists v, ob. split; auto. rewrite E; auto.
    assert (j < length (l_ents s))%nat by (apply nth_error_Some; congruence). destruct G. unfold l_last, i64 in *. lia.
  - rewrite E; auto.
  - rewrite E; auto.
Qed.

Definition wmeta r k := WPut [(meta_key big r, int64_bytes big k)] [].
Lemma data_files_dv d r a b' dr i : i64 r -> i64 a -> i64 b' -> i64 i -> ksorted (db d) ->
  dv (do_write d (WDelFiles (data_key big r a) (data_key big r b') dr)) r i =
    if (a <=? i) && (i <? b') && mem_key (data_key big r i) dr then None else dv d r i.
Proof.
  intros. unfold dv, do_write. cbn [db]. rewrite kget_filter by auto. rewrite data_in_range, Z.eqb_refl by auto. cbn [andb].
  destruct ((a <=? i) && (i <? b') && mem_key (data_key big r i) dr); reflexivity.
Qed.
Lemma data_range_dv d r a b' i : i64 r -> i64 a -> i64 b' -> i64 i -> ksorted (db d) ->
  dv (do_write d (WDelRange (data_key big r a) (data_key big r b'))) r i =
    if (a <=? i) && (i <? b') then None else dv d r i.
Proof.
  intros. unfold dv, do_write, kdel_range. cbn [db]. rewrite kget_filter by auto. rewrite data_in_range, Z.eqb_refl by auto. cbn [andb].
  destruct ((a <=? i) && (i <? b')); reflexivity.
Qed.
Lemma meta_files_mv d r a b' dr : i64 r -> i64 a -> i64 b' -> ksorted (db d) ->
  mv (do_write d (WDelFiles (data_key big r a) (data_key big r b') dr)) r = mv d r.
Proof. intros. unfold mv, do_write. cbn [db]. rewrite kget_filter by auto. rewrite meta_not_in_range by auto. reflexivity. Qed.
Lemma meta_range_mv d r a b' : i64 r -> i64 a -> i64 b' -> ksorted (db d) ->
  mv (do_write d (WDelRange (data_key big r a) (data_key big r b'))) r = mv d r.
Proof. intros. unfold mv, do_write, kdel_range. cbn [db]. rewrite kget_filter by auto. rewrite meta_not_in_range by auto. reflexivity. Qed.
Lemma wmeta_dv d r k i : i64 r -> i64 i -> ksorted (db d) -> dv (do_write d (wmeta r k)) r i = dv d r i.
Proof. intros. unfold dv, wmeta. cbn. rewrite kget_put, data_meta_eqb by auto. auto. Qed.
Lemma wmeta_mv d r k : ksorted (db d) -> mv (do_write d (wmeta r k)) r = Some (int64_bytes big k).
Proof. intros. unfold mv, wmeta. cbn. rewrite kget_put by auto. rewrite (proj2 (beqb_eq _ _) eq_refl). auto. Qed.
Lemma wmeta_ok r k : write_ok r (wmeta r k).
Proof. intros k' v [E|[]]. inversion E; subst. left. auto. Qed.

Definition prefix_writes r f k dr := [wmeta r k; WDelFiles (data_key big r f) (data_key big r k) dr; WDelRange (data_key big r f) (data_key big r k)].
Lemma prefix_write_ok r f k dr : i64 f -> i64 k -> Forall (write_ok r) (prefix_writes r f k dr).
Proof.
  intros. constructor; [apply wmeta_ok|]. constructor; [exists f, k; auto|]. constructor; [exists f, k; auto|]. constructor.
Qed.
Lemma trunc_RD b d r s cl k d' :
  RD b d r s cl -> good b s -> l_first s < k < 2 ^ 63 ->
  mv d' r = Some (int64_bytes big k) ->
  (forall i, i64 i -> k <= i -> dv d' r i = dv d r i) ->
  forall dr cl', (cl' = true -> forall i, i64 i -> i < k -> dv d' r i = None) ->
  RD b d' r (spec_op s (RTruncPrefix k dr)) cl'.
Proof.
  intros [A B C D] G K M E dr cl' CL. cbn [spec_op]. destruct (Z.leb_spec k (l_first s)); [lia|].
  destruct G as [F L _ _ _ _]. unfold l_last in *.
  constructor; unfold l_last; cbn [l_first l_ents]; auto.
  - intros j e H1. rewrite nth_error_skipn in H1. destruct (B _ _ H1) as (v & ob & H2 & H3). exists v, ob. split; auto.
    assert (Z.to_nat (k - l_first s) + j < length (l_ents s))%nat by (apply nth_error_Some; congruence).
    rewrite E by (unfold i64; lia). rewrite <- H3. f_equal. lia.
  - intros i Hi Hl. rewrite skipn_length in Hl. rewrite E by (auto; lia). apply C; auto. lia.
Qed.
Lemma prefix_RD b d r s cl k dr n : i64 r -> ksorted (db d) -> RD b d r s cl -> good b s -> l_first s < k < 2 ^ 63 -> (0 < n)%nat ->
  RD b (do_writes d (firstn n (prefix_writes r (l_first s) k dr))) r (spec_op s (RTruncPrefix k dr)) (cl && (3 <=? n)%nat).
Proof.
  intros Hr HS R G K N. unfold prefix_writes.
  assert (I1 : i64 (l_first s)) by (destruct G; unfold i64; lia). assert (I2 : i64 k) by (unfold i64 in *; lia).
  set (d1 := do_write d (wmeta r k)). assert (S1 : ksorted (db d1)) by (exact (fr_sorted _ _ _ (frame_write d r _ Hr HS (wmeta_ok r k)))).
  set (w2 := WDelFiles (data_key big r (l_first s)) (data_key big r k) dr).
  set (d2 := do_write d1 w2). assert (S2 : ksorted (db d2)) by (refine (fr_sorted _ _ _ (frame_write d1 r w2 Hr S1 _)); exists (l_first s), k; auto).
  destruct n as [|[|[|n]]]; [lia| | |].
  - cbn [firstn do_writes fold_left]. fold d1. rewrite Bool.andb_false_r. apply (trunc_RD b d r s cl k); auto.
    + apply wmeta_mv; auto.
    + intros. apply wmeta_dv; auto.
    + discriminate.
  - cbn [firstn do_writes fold_left]. fold d1 d2. rewrite Bool.andb_false_r. apply (trunc_RD b d r s cl k); auto.
    + unfold d2, w2. rewrite meta_files_mv by auto. apply wmeta_mv; auto.
    + intros. unfold d2, w2. rewrite data_files_dv by auto. destruct (Z.ltb_spec i k); [lia|]. rewrite Bool.andb_false_r. cbn [andb]. apply wmeta_dv; auto.
    + discriminate.
  - rewrite firstn_all2 by (cbn; lia). cbn [do_writes fold_left]. fold d1 d2. rewrite Bool.andb_true_r. apply (trunc_RD b d r s cl k); auto.
    + rewrite meta_range_mv by auto. unfold d2, w2. rewrite meta_files_mv by auto. apply wmeta_mv; auto.
    + intros. rewrite data_range_dv by auto. destruct (Z.ltb_spec i k); [lia|]. rewrite Bool.andb_false_r.
      unfold d2, w2. rewrite data_files_dv by auto. destruct (Z.ltb_spec i k); [lia|]. rewrite Bool.andb_false_r. cbn [andb]. apply wmeta_dv; auto.
    + intros E i Hi Hl. rewrite data_range_dv by auto. destruct (Z.ltb_spec i k); [|lia]. rewrite Bool.andb_true_r.
      destruct (Z.leb_spec (l_first s) i); auto. unfold d2, w2. rewrite data_files_dv by auto. destruct (Z.leb_spec (l_first s) i); [lia|].
      cbn [andb]. unfold d1. rewrite wmeta_dv by auto. apply (rd_below _ _ _ _ _ R); auto.
Qed.

Lemma seqZ_in a n x : In x (seqZ a n) <-> a <= x < a + Z.of_nat n.
Proof. revert a. induction n as [|n IH]; intros a; cbn [seqZ In]; [lia|]. rewrite IH. lia. Qed.
Definition suffix_write r k n := WDel (map (data_key big r) (seqZ (k + 1) n)).
Lemma suffix_write_ok r k n : i64 k -> k + Z.of_nat n < 2 ^ 63 -> write_ok r (suffix_write r k n).
Proof. intros H1 H2 x I. apply in_map_iff in I. destruct I as (i & <- & I). apply seqZ_in in I. right. exists i. split; auto. unfold i64 in *. lia. Qed.
Lemma suffix_RD b d r s cl k : i64 r -> ksorted (db d) -> RD b d r s cl -> good b s -> l_first s - 1 <= k < l_last s ->
  RD b (do_write d (suffix_write r k (Z.to_nat (l_last s - k)))) r (spec_op s (RTruncSuffix k)) cl.
Proof.
  intros Hr HS R G K. cbn [spec_op]. destruct (Z.leb_spec (l_last s) k); [lia|]. destruct R as [A B C D]. destruct G as [F L _ _ _ _].
  assert (KD : forall i, i64 i -> dv (do_write d (suffix_write r k (Z.to_nat (l_last s - k)))) r i = if (k <? i) && (i <=? l_last s) then None else dv d r i).
  { intros i Hi. unfold dv, suffix_write, do_write. cbn [db]. rewrite kget_filter by auto.
    destruct (mem_key (data_key big r i) (map (data_key big r) (seqZ (k + 1) (Z.to_nat (l_last s - k))))) eqn:E; cbn [negb].
    - apply mem_key_in, in_map_iff in E. destruct E as (j & E & I). apply seqZ_in in I. 
      assert (i = j).
      { apply beqb_eq in E. rewrite data_eqb in E by (auto; unfold i64 in *; lia). lia. }
      subst j. replace ((k <? i) && (i <=? l_last s)) with true by lia. auto.
    - destruct (Z.ltb_spec k i); auto. destruct (Z.leb_spec i (l_last s)); auto. exfalso.
      apply Bool.not_true_iff_false in E. apply E. apply mem_key_in. apply in_map. apply seqZ_in. lia. }
  unfold l_last in *. constructor; unfold l_last; cbn [l_first l_ents].
  - rewrite <- A. unfold mv, suffix_write, do_write. cbn [db]. rewrite kget_filter by auto.
    destruct (mem_key _ _) eqn:E; auto. exfalso. apply mem_key_in, in_map_iff in E. destruct E as (j & E & I). apply seqZ_in in I.
    apply beqb_eq in E. rewrite data_meta_eqb in E by (auto; unfold i64 in *; lia). discriminate.
  - intros j e H1. assert (j < length (firstn (Z.to_nat (k + 1 - l_first s)) (l_ents s)))%nat as LJ by (apply nth_error_Some; congruence).
    rewrite firstn_length in LJ. rewrite nth_error_firstn in H1 by lia. destruct (B _ _ H1) as (v & ob & H2 & H3). exists v, ob. split; auto.
    rewrite KD by (unfold i64; lia). replace (_ && _) with false by lia. auto.
  - intros i Hi Hl. rewrite firstn_length in Hl. rewrite KD by auto. destruct ((k <? i) && _) eqn:E; auto. apply C; auto. lia.
  - intros CL i Hi Hl. rewrite KD by auto. destruct ((k <? i) && _) eqn:E; auto.
Qed.

(* ---- append ---- *)
Lemma build_value_ok b e : entry_ok c b e -> exists v, build_value c b big e = Some (v, option_map (fun x => (binlog_key big (fst x), snd x)) (prewrite_ts c b e)).
Proof.
  intros [T P]. unfold build_value, prewrite_ts in *. destruct (e_pay e); try (eexists; reflexivity); [|contradiction].
  destruct b; [|eexists; reflexivity]. destruct (P eq_refl) as [NN _]. destruct (c_req c d) as [[[] [ts|]]|]; try congruence; eexists; reflexivity.
Qed.
Lemma build_all_ok b r es : Forall (entry_ok c b) es -> exists vs,
  build_all c b big r es = Some (vs, map (fun x => (binlog_key big (fst x), snd x)) (prewrites c b es)) /\
  map fst vs = map (fun e => data_key big r (e_index e)) es.
Proof.
  induction 1 as [|e es H _ (vs & E & K)]; cbn [build_all prewrites flat_map]; [exists []; auto|].
  destruct (build_value_ok b e H) as (v & ->). rewrite E. eexists. split.
  - f_equal. f_equal. unfold prewrites. destruct (prewrite_ts c b e) as [[ts d]|]; reflexivity.
  - cbn. f_equal. auto.
Qed.
Lemma puts_dv b r i es : i64 r -> i64 i -> forall vs bs i0 s, ksorted s -> 
  build_all c b big r es = Some (vs, bs) -> consecutive i0 es -> - 2 ^ 63 <= i0 -> i0 + Z.of_nat (length es) <= 2 ^ 63 ->
  kget (data_key big r i) (puts vs s) =
    match (if i <? i0 then None else nth_error es (Z.to_nat (i - i0))) with
    | Some e => option_map fst (build_value c b big e)
    | None => kget (data_key big r i) s
    end.
Proof.
  intros Hr Hi. induction es as [|e es IH]; intros vs bs i0 s HS B C L1 L2; cbn [build_all] in B.
  - inversion B; subst. cbn. destruct (i <? i0); auto. rewrite (proj2 (nth_error_None _ _)); auto. cbn; lia.
  - destruct (build_value c b big e) as [[v ob]|] eqn:EV; [|discriminate].
    destruct (build_all c b big r es) as [[vs' bs']|] eqn:EB; [|discriminate]. injection B; intros _ <-; clear B.
    destruct C as [CI C]. cbn [length] in L2. cbn [puts fold_left fst snd].
    change (fold_left _ vs' ?x) with (puts vs' x).
    rewrite (IH vs' bs' (i0 + 1) _ (kput_sorted _ _ _ HS) eq_refl C) by lia.
    rewrite kget_put, data_eqb, Z.eqb_refl, CI by (auto; unfold i64; lia). cbn [andb].
    destruct (Z.ltb_spec i (i0 + 1)), (Z.ltb_spec i i0); try lia.
    + destruct (Z.eqb_spec i i0); [lia|auto].
    + destruct (Z.eqb_spec i i0); [|lia]. replace (i - i0) with 0 by lia. cbn. rewrite EV. auto.
    + replace (Z.to_nat (i - i0)) with (S (Z.to_nat (i - (i0 + 1)))) by lia. cbn [nth_error].
      destruct (nth_error es _); auto. destruct (Z.eqb_spec i i0); [lia|auto].
Qed.
Lemma append_RD b d r s cl es vs bs : i64 r -> ksorted (db d) -> RD b d r s cl -> good b s -> legal_op c b s (RAppend es) ->
  build_all c b big r es = Some (vs, bs) -> map fst vs = map (fun e => data_key big r (e_index e)) es ->
  RD b (do_write d (WPut vs bs)) r (spec_op s (RAppend es)) cl /\ write_ok r (WPut vs bs).
Proof.
  intros Hr HS R G (L1 & L2 & L3 & L4) B K. destruct R as [RA RB RC RDD]. destruct G as [F L _ _ _ _].
  assert (OK : write_ok r (WPut vs bs)).
  { intros k v I. right. apply (in_map fst) in I. rewrite K in I. apply in_map_iff in I. destruct I as (e & E & I).
    apply In_nth_error in I. destruct I as [j I]. pose proof (consec_nth _ _ L1 _ _ I) as EI.
    assert (j < length es)%nat by (apply nth_error_Some; congruence).
    exists (e_index e). split; [|symmetry; exact E]. unfold i64, l_last in *. lia. }
  split; auto. unfold l_last in *.
  assert (PD : forall i, i64 i -> dv (do_write d (WPut vs bs)) r i =
    match (if i <? l_first s + Z.of_nat (length (l_ents s)) then None else nth_error es (Z.to_nat (i - (l_first s + Z.of_nat (length (l_ents s)))))) with
    | Some e => option_map fst (build_value c b big e) | None => dv d r i end).
  { intros i Hi. unfold dv at 1, do_write. cbn [db].
    replace (l_first s + Z.of_nat (length (l_ents s))) with (l_first s + Z.of_nat (length (l_ents s)) - 1 + 1) by lia.
    eapply puts_dv; eauto; lia. }
  constructor; unfold l_last; cbn [spec_op l_first l_ents].
  - rewrite <- RA. unfold mv, do_write. cbn [db]. apply puts_other; auto. intros k' v I. destruct (OK _ _ I) as [->|(i & Hi & ->)].
    + exfalso. apply (in_map fst) in I. rewrite K in I. apply in_map_iff in I. destruct I as (e & E & I).
      apply In_nth_error in I. destruct I as [j I]. pose proof (consec_nth _ _ L1 _ _ I) as EI.
      assert (j < length es)%nat by (apply nth_error_Some; congruence).
      cbn [fst] in E; apply beqb_eq in E. rewrite data_meta_eqb in E by (auto; unfold i64; lia). discriminate.
    + apply meta_data_eqb; auto.
  - intros j e E. destruct (Nat.lt_ge_cases j (length (l_ents s))) as [LJ|LJ].
    + rewrite nth_error_app1 in E by auto. destruct (RB _ _ E) as (v & ob & H1 & H2). exists v, ob. split; auto.
      rewrite PD by (unfold i64; lia). destruct (Z.ltb_spec (l_first s + Z.of_nat j) (l_first s + Z.of_nat (length (l_ents s)))); [auto|lia].
    + rewrite nth_error_app2 in E by auto.
      assert (j - length (l_ents s) < length es)%nat by (apply nth_error_Some; congruence).
      pose proof (nth_error_In _ _ E) as I. rewrite Forall_forall in L3. destruct (build_value_ok b e (L3 _ I)) as (v & EV).
      exists v. eexists. split; [exact EV|]. rewrite PD by (unfold i64; lia).
      destruct (Z.ltb_spec (l_first s + Z.of_nat j) (l_first s + Z.of_nat (length (l_ents s)))); [lia|].
      replace (Z.to_nat _) with (j - length (l_ents s))%nat by lia. rewrite E, EV. reflexivity.
  - intros i Hi Hl. rewrite app_length in Hl. rewrite PD by auto.
    destruct (Z.ltb_spec i (l_first s + Z.of_nat (length (l_ents s)))); [lia|].
    rewrite (proj2 (nth_error_None _ _)) by lia. apply RC; auto. lia.
  - intros CL i Hi Hl. rewrite PD by auto. destruct (Z.ltb_spec i (l_first s + Z.of_nat (length (l_ents s)))); [auto|lia].
Qed.
Lemma tm_append_all_ok b es : forall q x, TM q x -> consecutive (r_last x + 1) es -> terms_from (last (r_terms x) (r_prev x)) es -> Forall (entry_ok c b) es ->
  exists q', tm_append_all q es = Some q' /\ TM q' (mk_tref (r_first x) (r_prev x) (r_terms x ++ map e_term es)).
Proof.
  induction es as [|e es IH]; intros q x T C M O; cbn [tm_append_all map].
  - exists q. split; auto. rewrite app_nil_r. destruct x; auto.
  - destruct C as [CI C], M as [M1 M2]. inversion O; subst.
    destruct (tm_append_ok q x (e_term e) T) as (q1 & E1 & T1). { split; auto. destruct H1. lia. }
    rewrite CI, E1. cbn [ref_step] in T1. destruct (IH q1 _ T1) as (q2 & E2 & T2); auto.
    + unfold r_last in *. cbn [r_first r_terms]. rewrite app_length. cbn [length].
      replace (r_first x + Z.of_nat (length (r_terms x) + 1) - 1 + 1) with (r_first x + Z.of_nat (length (r_terms x)) - 1 + 1 + 1) by lia. auto.
    + cbn [r_terms r_prev]. rewrite last_last. auto.
    + exists q2. split; auto. cbn [r_first r_prev r_terms] in T2. rewrite <- app_assoc in T2. exact T2.
Qed.

Definition bput (l : list (Z * list Z)) (s : kv (list Z)) := puts (map (fun x => (binlog_key big (fst x), snd x)) l) s.
Record op_res (b : bool) (d : disk) (r : Z) (s : slog) (cl : bool) (o : rop) (x : mem * list write * Z) : Prop := {
  or_mem : MemOk (fst (fst x)) (spec_op s o);
  or_ok : Forall (write_ok r) (snd (fst x));
  or_good : good b (spec_op s o);
  or_disk : RD b (do_writes d (snd (fst x))) r (spec_op s o) cl;
  or_crash : forall n, RD b (do_writes d (firstn n (snd (fst x)))) r (crash_result s o n) false /\ good b (crash_result s o n);
  or_bdb : forall n, bdb (do_writes d (firstn n (snd (fst x)))) = match n with O => bdb d | _ => bput (prewrites c b (appended o)) (bdb d) end
}.

Lemma append_res b d r s cl m es : i64 r -> ksorted (db d) -> RD b d r s cl -> good b s -> MemOk m s -> legal_op c b s (RAppend es) ->
  op_res b d r s cl (RAppend es) (append_entries big c b r m es) /\ snd (append_entries big c b r m es) = Z.of_nat (length es).
Proof.
  intros Hr HS R G M LG. pose proof (good_append _ _ _ G LG) as G'. destruct M as [M1 M2 M3]. pose proof LG as (L1 & L2 & L3 & L4).
  unfold append_entries. destruct es as [|e0 es0] eqn:EE.
  - split; [|reflexivity].
    assert (Q : spec_op s (RAppend []) = s) by (cbn [spec_op]; rewrite app_nil_r; destruct s; auto).
    constructor; cbn [fst snd]; rewrite ?Q; auto.
    + constructor; auto.
    + intros n. rewrite firstn_nil. cbn [do_writes fold_left]. split.
      * destruct n; cbn [crash_result]; rewrite ?Q; eapply RD_weak; eauto.
      * destruct n; cbn [crash_result]; rewrite ?Q; auto.
    + intros n. rewrite firstn_nil. destruct n; reflexivity.
  - rewrite <- EE in *. rewrite M2.
    replace (l_last s + 1 =? e_index e0) with true by (subst es; destruct LG as ([CI' _] & _); lia). cbn [negb].
    destruct (build_all_ok b r es L3) as (vs & EB & EK). rewrite EB.
    destruct (tm_append_all_ok b es (m_tmap m) (ref_of s) M3) as (q' & EQ & TQ).
    + unfold r_last, ref_of. cbn [r_first r_terms]. rewrite map_length. exact (proj1 LG).
    + exact L2.
    + auto.
    + rewrite EQ. split; [|reflexivity].
      destruct (append_RD b d r s cl es vs _ Hr HS R G LG EB EK) as [R' W].
      constructor; cbn [fst snd]; auto.
      * constructor; cbn [m_first m_last m_tmap]; auto.
        { unfold l_last. cbn [spec_op l_first l_ents]. rewrite app_length. lia. }
        { unfold ref_of. cbn [spec_op l_first l_prev l_ents]. rewrite map_app. exact TQ. }
      * intros [|n]; cbn [firstn crash_result do_writes fold_left].
        { split; auto. eapply RD_weak; eauto. }
        { rewrite firstn_nil. cbn [fold_left]. split; auto. eapply RD_weak; eauto. }
      * intros [|n]; cbn [firstn do_writes fold_left]; auto. rewrite firstn_nil. reflexivity.
Qed.
Lemma mem_prefix b s m k dr : MemOk m s -> good b s -> l_first s < k -> MemOk (mk_mem k (if m_last m <? k then k - 1 else m_last m) (tm_truncate_prefix (m_tmap m) k) (m_confs m)) (spec_op s (RTruncPrefix k dr)).
Proof.
  intros [M1 M2 M3] G K. pose proof (tm_prefix_ok _ _ k M3) as T. cbn [ref_step r_first ref_of] in T. cbn [spec_op].
  destruct (Z.leb_spec k (l_first s)); [lia|]. constructor; cbn [m_first m_last m_tmap l_first]; auto.
  - rewrite M2. unfold l_last. cbn [l_first l_ents]. rewrite skipn_length. destruct (Z.ltb_spec (l_first s + Z.of_nat (length (l_ents s)) - 1) k); lia.
  - unfold ref_of. cbn [l_first l_prev l_ents]. unfold last_term. rewrite <- firstn_map, <- skipn_map. apply T. auto.
Qed.
Lemma r_last_ref s : r_last (ref_of s) = l_last s.
Proof. unfold r_last, ref_of. cbn [r_first r_terms]. rewrite map_length. reflexivity. Qed.
Lemma mem_suffix b s m k : MemOk m s -> good b s -> l_first s - 1 <= k < l_last s -> MemOk (mk_mem (m_first m) k (tm_truncate_suffix (m_tmap m) k) (m_confs m)) (spec_op s (RTruncSuffix k)).
Proof.
  intros [M1 M2 M3] G K. pose proof (tm_suffix_ok _ _ k M3) as T. unfold ref_step in T. rewrite r_last_ref in T. cbn [r_first ref_of r_terms r_prev] in T. cbn [spec_op].
  destruct (Z.leb_spec (l_last s) k); [lia|]. constructor; cbn [m_first m_last m_tmap l_first]; auto.
  - unfold l_last in *. cbn [l_first l_ents]. rewrite firstn_length. lia.
  - unfold ref_of. cbn [l_first l_prev l_ents]. rewrite <- firstn_map. apply T. lia.
Qed.
Lemma bdb_prefix d r f k dr n : bdb (do_writes d (firstn n (prefix_writes r f k dr))) = bdb d.
Proof. destruct n as [|[|[|n]]]; try reflexivity. rewrite firstn_all2 by (cbn; lia). reflexivity. Qed.
Lemma prefix_res b d r s cl m k dr : i64 r -> ksorted (db d) -> RD b d r s cl -> good b s -> MemOk m s -> k < 2 ^ 63 ->
  op_res b d r s cl (RTruncPrefix k dr) (truncate_prefix big r m k dr).
Proof.
  intros Hr HS R G M K. unfold truncate_prefix. rewrite (mo_first _ _ M). destruct (Z.leb_spec k (l_first s)) as [C|C].
  - assert (Q : spec_op s (RTruncPrefix k dr) = s) by (cbn [spec_op]; destruct (Z.leb_spec k (l_first s)); auto; lia).
    constructor; cbn [fst snd]; rewrite ?Q; auto.
    + intros n. rewrite firstn_nil. cbn [do_writes fold_left]. split.
      * destruct n; cbn [crash_result]; rewrite ?Q; eapply RD_weak; eauto.
      * destruct n; cbn [crash_result]; rewrite ?Q; auto.
    + intros n. rewrite firstn_nil. destruct n; reflexivity.
  - replace (l_first s <? 0) with false by (destruct G; lia).
    change [WPut _ _; _; _] with (prefix_writes r (l_first s) k dr).
    assert (I1 : i64 (l_first s)) by (destruct G; unfold i64; lia). assert (I2 : i64 k) by (unfold i64 in *; lia).
    pose proof (good_prefix b s k dr G K) as G'.
    constructor; cbn [fst snd]; auto.
    + eapply mem_prefix; eauto.
    + apply prefix_write_ok; auto.
    + pose proof (prefix_RD b d r s cl k dr 3 Hr HS R G (conj C K)) as P. rewrite Bool.andb_true_r in P. apply P. lia.
    + intros [|n].
      * cbn [crash_result firstn do_writes fold_left]. split; auto. eapply RD_weak; eauto.
      * cbn [crash_result]. split; auto. eapply RD_weak. apply prefix_RD; eauto. lia.
    + intros n. rewrite bdb_prefix. destruct n; reflexivity.
Qed.
Lemma suffix_res b d r s cl m k : i64 r -> ksorted (db d) -> RD b d r s cl -> good b s -> MemOk m s -> l_first s - 1 <= k ->
  op_res b d r s cl (RTruncSuffix k) (truncate_suffix big r m k).
Proof.
  intros Hr HS R G M K. unfold truncate_suffix. rewrite (mo_last _ _ M). destruct (Z.leb_spec (l_last s) k) as [C|C].
  - assert (Q : spec_op s (RTruncSuffix k) = s) by (cbn [spec_op]; destruct (Z.leb_spec (l_last s) k); auto; lia).
    constructor; cbn [fst snd]; rewrite ?Q; auto.
    + intros n. rewrite firstn_nil. cbn [do_writes fold_left]. split.
      * destruct n; cbn [crash_result]; rewrite ?Q; eapply RD_weak; eauto.
      * destruct n; cbn [crash_result]; rewrite ?Q; auto.
    + intros n. rewrite firstn_nil. destruct n; reflexivity.
  - pose proof (good_suffix b s k G K) as G'. pose proof (suffix_RD b d r s cl k Hr HS R G (conj K C)) as P.
    constructor; cbn [fst snd]; auto.
    + eapply mem_suffix; eauto.
    + constructor; [|constructor]. destruct G. apply suffix_write_ok; unfold i64; lia.
    + intros [|n]; cbn [crash_result firstn do_writes fold_left].
      * split; auto. eapply RD_weak; eauto.
      * rewrite firstn_nil. cbn [fold_left]. split; auto. eapply RD_weak; eauto.
    + intros [|n]; cbn [firstn do_writes fold_left]; auto. rewrite firstn_nil. reflexivity.
Qed.
Lemma RD_prev b d r s cl p : RD b d r s cl -> RD b d r (mk_slog (l_first s) p (l_ents s)) cl.
Proof. intros [A B C D]. constructor; auto. Qed.
Lemma do_writes_app d a b' : do_writes d (a ++ b') = do_writes (do_writes d a) b'.
Proof. unfold do_writes. apply fold_left_app. Qed.
Lemma reset_res b d r s cl m k dr : i64 r -> ksorted (db d) -> RD b d r s cl -> good b s -> MemOk m s -> l_first s <= k < 2 ^ 63 ->
  op_res b d r s cl (RReset k dr) (reset big r m k dr).
Proof.
  intros Hr HS R G M K. unfold reset.
  pose proof (prefix_res b d r s cl m k dr Hr HS R G M ltac:(lia)) as P1.
  assert (LW : snd (fst (truncate_prefix big r m k dr)) = [] /\ l_first s = k /\ spec_op s (RTruncPrefix k dr) = s \/
               length (snd (fst (truncate_prefix big r m k dr))) = 3%nat /\ l_first s < k).
  { unfold truncate_prefix. rewrite (mo_first _ _ M). cbn [spec_op]. destruct (Z.leb_spec k (l_first s)) as [C|C].
    - left. split; auto. split; auto. lia.
    - right. replace (l_first s <? 0) with false by (destruct G; lia). split; auto. }
  destruct (truncate_prefix big r m k dr) as [[m1 w1] rc1]. destruct P1 as [PM PO PG PD PC PB]. cbn [fst snd] in *.
  set (s1 := spec_op s (RTruncPrefix k dr)) in *.
  assert (F1 : l_first s1 = k). { unfold s1. cbn [spec_op]. destruct (Z.leb_spec k (l_first s)); cbn [l_first]; lia. }
  assert (S1 : ksorted (db (do_writes d w1))) by (exact (fr_sorted _ _ _ (frame_writes r Hr w1 d HS PO))).
  pose proof (suffix_res b (do_writes d w1) r s1 cl m1 (k - 1) Hr S1 PD PG PM ltac:(lia)) as P2.
  destruct (truncate_suffix big r m1 (k - 1)) as [[m2 w2] rc2] eqn:TS. destruct P2 as [QM QO QG QD QC QB]. cbn [fst snd] in *.
  assert (E2 : spec_op s1 (RTruncSuffix (k - 1)) = mk_slog (l_first s1) (l_prev s1) []).
  { cbn [spec_op]. destruct (Z.leb_spec (l_last s1) (k - 1)) as [C|C].
    - unfold l_last in C. clear - C F1. clearbody s1. destruct s1 as [f p es]; cbn [l_first l_prev l_ents] in *. destruct es; [reflexivity|cbn [length] in C; lia].
    - rewrite F1. replace (Z.to_nat (k - 1 + 1 - k)) with 0%nat by lia. reflexivity. }
  assert (G2 : good b (mk_slog k 0 [])) by (apply good_empty; destruct G; lia).
  assert (R2 : forall d' cl', RD b d' r (spec_op s1 (RTruncSuffix (k - 1))) cl' -> RD b d' r (mk_slog k 0 []) cl').
  { intros d' cl' X. rewrite E2, F1 in X. apply (RD_prev _ _ _ _ _ 0) in X. exact X. }
  assert (W2 : (length w2 <= 1)%nat).
  { unfold truncate_suffix in TS. destruct (m_last m1 <=? k - 1); clear - TS; inversion TS; cbn; lia. }
  constructor; cbn [fst snd]; auto.
  - cbn [spec_op]. destruct QM as [Q1 Q2 Q3]. rewrite E2 in *. cbn [l_first] in Q1. unfold l_last in Q2. cbn [l_first l_ents length] in Q2.
    constructor; cbn [m_first m_last m_tmap l_first]; try lia. { unfold l_last; cbn [l_first l_ents length]; lia. } apply tm_empty.
  - apply Forall_app. auto.
  - cbn [spec_op]. rewrite do_writes_app. auto.
  - intros n. destruct n as [|n]. { cbn [crash_result firstn do_writes fold_left]. split; auto. eapply RD_weak; eauto. }
    destruct LW as [(-> & EQ & ES)|(L3 & LT)].
    + cbn [app]. cbn [crash_result]. replace (l_first s <? k) with false by lia. cbn [andb spec_op]. split; auto.
      cbn [do_writes fold_left] in QD, QC. destruct (QC (S n)) as [Q _]. cbn [crash_result] in Q. apply R2. auto.
    + cbn [crash_result]. replace (l_first s <? k) with true by lia. cbn [andb].
      destruct (Nat.leb_spec (S n) 3).
      * rewrite firstn_app. replace (S n - length w1)%nat with 0%nat by lia. cbn [firstn]. rewrite app_nil_r.
        destruct (PC (S n)) as [Q1 Q2]. cbn [crash_result] in Q1, Q2. auto.
      * cbn [spec_op]. split; auto. rewrite firstn_all2 by (rewrite app_length; lia). rewrite do_writes_app. eapply RD_weak. apply R2. exact QD.
  - intros n. cbn [appended prewrites flat_map]. rewrite firstn_app, do_writes_app.
    assert (B0 : forall d' n, bdb (do_writes d' (firstn n w2)) = bdb d').
    { intros d' n'. unfold truncate_suffix in TS. destruct (m_last m1 <=? k - 1); injection TS; intros _ <- _; destruct n'; cbn; rewrite ?firstn_nil; reflexivity. }
    rewrite B0, PB. destruct n; reflexivity.
Qed.
Lemma op_ok b d r s cl m o : i64 r -> ksorted (db d) -> RD b d r s cl -> good b s -> MemOk m s -> legal_op c b s o ->
  op_res b d r s cl o (do_rop big c b r m o).
Proof.
  intros. destruct o; cbn [do_rop].
  - apply append_res; auto.
  - apply prefix_res; auto.
  - apply suffix_res; auto.
  - apply reset_res; auto.
Qed.
End Log.
