From Verif.Raft Require Import Model Spec ProofsTerm ProofsKeys ProofsLog.
From Coq Require Import Sorted.
Local Open Scope Z_scope.

Section Run.
Variable big : bool.
Variable c : codec.
Variable binlog : Z -> bool.
Hypothesis CO : codec_ok c.

(* ---- reading a value back ---- *)
Lemma build_head b e v ob : entry_ok c b e -> build_value c b big e = Some (v, ob) ->
  exists ty body, v = head_bytes (e_term e) ty ++ body /\ 1 <= ty <= 3 /\
    match e_pay e with
    | PNoop => ty = 1 /\ body = []
    | PData d => ty = 2 /\ body = (match prewrite_ts c b e with Some _ => c_shrink c d | None => d end)
    | PConf p o => ty = 3 /\ body = c_ser_conf c p (match o with Some x => x | None => [] end)
    | PUnknown _ => False
    end.
Proof.
  intros [T P] B. unfold build_value in B. destruct (e_pay e) as [|d|p o|t] eqn:EP; try discriminate.
  - inversion B; subst. exists 1, []. rewrite app_nil_r. split; auto. split; [lia|auto].
  - unfold prewrite_ts in *. rewrite EP in *. destruct b.
    + destruct (c_req c d) as [[[] [ts|]]|]; inversion B; subst; eexists 2, _; (split; [reflexivity|split; [lia|auto]]).
    + inversion B; subst. exists 2, d. split; auto. split; [lia|auto].
  - inversion B; subst. eexists 3, _. split; [reflexivity|]. split; [lia|auto].
Qed.
Lemma parse_back p o : o <> Some [] -> parse_meta c (c_ser_conf c p (match o with Some x => x | None => [] end)) = Some (PConf p o).
Proof. intros H. unfold parse_meta. rewrite (proj1 CO). destruct o as [[|x l]|]; congruence || reflexivity. Qed.

Lemma get_entry_ok b d r i e v ob : entry_ok c b e -> e_index e = i -> build_value c b big e = Some (v, ob) -> dv big d r i = Some v ->
  (forall ts x, prewrite_ts c b e = Some (ts, x) -> kget (binlog_key big ts) (bdb d) = Some x) ->
  get_entry big c b d r i = Some e.
Proof.
  intros OK EI B D TS. unfold get_entry, dv in *. rewrite D. pose proof OK as [T P].
  destruct (build_head b e v ob OK B) as (ty & body & -> & TY & M).
  rewrite app_length, head_len. replace (12 + length body <? LOG_HEAD_SIZE)%nat with false by (symmetry; apply Nat.ltb_ge; unfold LOG_HEAD_SIZE; lia).
  cbv zeta. rewrite head_body, head_type_ok, head_term_ok by lia. unfold ENTRY_TYPE_DATA, ENTRY_TYPE_CONFIGURATION, ENTRY_TYPE_NO_OP.
  destruct e as [idx tm pay]; cbn [e_pay e_term e_index] in *. subst idx. destruct pay as [|x|p o|t]; [| | |contradiction].
  - destruct M as [-> ->]. reflexivity.
  - destruct M as [-> ->]. cbn [Z.eqb Pos.eqb]. unfold prewrite_ts in *. cbn [e_pay] in *. destruct b; [|reflexivity].
    destruct (P eq_refl) as [NN _]. destruct (c_req c x) as [[[] ots]|] eqn:EQ; [| |congruence].
    + assert (SH := proj2 CO x ots EQ). destruct ots as [ts|]; rewrite SH; rewrite (TS _ _ eq_refl); reflexivity.
    + rewrite EQ. reflexivity.
  - destruct M as [-> ->]. cbn [Z.eqb Pos.eqb]. rewrite parse_back by auto. reflexivity.
Qed.

(* ---- opening ---- *)
Fixpoint recs_of (b : bool) (r : Z) (es : list entry) : kv (list Z) :=
  match es with
  | [] => []
  | e :: es' => match build_value c b big e with
                | Some (v, _) => (data_key big r (e_index e), v) :: recs_of b r es'
                | None => recs_of b r es'
                end
  end.
Lemma recs_in b r es : Forall (entry_ok c b) es -> forall k v, In (k, v) (recs_of b r es) <->
  exists j e ob, nth_error es j = Some e /\ build_value c b big e = Some (v, ob) /\ k = data_key big r (e_index e).
Proof.
  induction 1 as [|e es H F IH]; intros k v; cbn [recs_of].
  - split; [intros []|]. intros (j & e & ob & E & _). destruct j; discriminate.
  - destruct (build_value_ok big c b e H) as (v0 & EV). rewrite EV. cbn [In]. rewrite IH. split.
    + intros [E|(j & e' & ob & E1 & E2 & E3)].
      * inversion E; subst. exists 0%nat, e. eexists. split; [reflexivity|]. split; [exact EV|auto].
      * exists (S j), e', ob. split; [exact E1|auto].
    + intros (j & e' & ob & E1 & E2 & E3). destruct j as [|j]; cbn in E1.
      * left. inversion E1; subst. congruence.
      * right. exists j, e', ob. auto.
Qed.
Lemma recs_above b r k0 v0 es : i64 r -> i64 k0 -> forall j, k0 < j -> j + Z.of_nat (length es) <= 2 ^ 63 -> consecutive j es ->
  Forall (klt (data_key big r k0, v0)) (recs_of b r es).
Proof.
  intros Hr I. induction es as [|a es IH]; intros j GE BND C; cbn [recs_of]; [constructor|]. destruct C as [CI C]. cbn [length] in BND.
  assert (REC : Forall (klt (data_key big r k0, v0)) (recs_of b r es)) by (apply (IH (j + 1)); auto; lia).
  destruct (build_value c b big a) as [[v' ob']|]; auto. constructor; auto. unfold klt. cbn [fst].
  rewrite data_cmp by (auto; unfold i64 in *; lia). rewrite Z.compare_refl. apply Z.compare_lt_iff. lia.
Qed.
Lemma recs_sorted b r es : i64 r -> forall i, consecutive i es -> - 2 ^ 63 <= i -> i + Z.of_nat (length es) <= 2 ^ 63 -> ksorted (recs_of b r es).
Proof.
  intros Hr. induction es as [|e es IH]; intros i C L1 L2; cbn [recs_of]; [constructor|]. destruct C as [CI C]. cbn [length] in L2.
  specialize (IH _ C ltac:(lia) ltac:(lia)).
  destruct (build_value c b big e) as [[v ob]|]; auto. constructor; auto.
  apply recs_above with (j := i + 1); auto; [unfold i64; lia|lia|lia].
Qed.
Definition known (d : disk) : Prop := forall k v, In (k, v) (db d) -> exists r, i64 r /\ own_key big r k.
Lemma scan_ok b d r s cl : i64 r -> ksorted (db d) -> known d -> RD big c b d r s cl -> good c b s ->
  kfilter (same_prefix 9 (data_key big r (l_first s))) (kseek (data_key big r (l_first s)) (db d)) = recs_of b r (l_ents s).
Proof.
  intros Hr HS KN R G. destruct G as [F L P C M O]. unfold l_last in L.
  apply ksorted_ext.
  - apply kfilter_sorted. apply kfilter_sorted. auto.
  - eapply recs_sorted; eauto; lia.
  - intros [k v]. rewrite recs_in by auto. unfold kseek, kfilter. rewrite !filter_In. cbn [fst]. split.
    + intros [[I B] S9]. destruct (KN _ _ I) as (r' & Hr' & [->|(i & Hi & ->)]).
      * rewrite same_prefix_meta in S9 by auto. discriminate.
      * rewrite same_prefix_data in S9 by auto. apply Z.eqb_eq in S9. subst r'.
        rewrite data_leb, Z.ltb_irrefl, Z.eqb_refl in B by (auto; unfold i64; lia). cbn [orb andb] in B. apply Z.leb_le in B.
        apply kget_in in I; auto. change (dv big d r i = Some v) in I.
        destruct (Z_lt_ge_dec (l_last s) i) as [GT|LE]. { rewrite (rd_above _ _ _ _ _ _ _ R) in I by auto. discriminate. }
        unfold l_last in LE. destruct (nth_error (l_ents s) (Z.to_nat (i - l_first s))) as [e|] eqn:E.
        2:{ apply nth_error_None in E. lia. }
        destruct (rd_ent _ _ _ _ _ _ _ R _ _ E) as (v' & ob & E1 & E2).
        replace (l_first s + Z.of_nat (Z.to_nat (i - l_first s))) with i in E2 by lia. assert (v' = v) by congruence. subst v'.
        exists (Z.to_nat (i - l_first s)), e, ob. split; auto. split; auto. f_equal. rewrite (consec_nth _ _ C _ _ E). lia.
    + intros (j & e & ob & E1 & E2 & ->). pose proof (consec_nth _ _ C _ _ E1) as EI.
      assert (j < length (l_ents s))%nat by (apply nth_error_Some; congruence).
      assert (Hi : i64 (e_index e)) by (unfold i64; lia).
      destruct (rd_ent _ _ _ _ _ _ _ R _ _ E1) as (v' & ob' & E3 & E4). rewrite <- EI in E4. assert (v' = v) by congruence. subst v'.
      split; [split|].
      * apply kget_in; auto.
      * rewrite data_leb, Z.ltb_irrefl, Z.eqb_refl by (auto; unfold i64; lia). cbn [orb andb]. apply Z.leb_le. lia.
      * rewrite same_prefix_data by auto. apply Z.eqb_refl.
Qed.
Lemma load_ok b r es : i64 r -> forall q x lst confs, TM q x -> consecutive (r_last x + 1) es -> terms_from (last (r_terms x) (r_prev x)) es ->
  Forall (entry_ok c b) es -> - 2 ^ 63 <= r_last x + 1 -> r_last x + Z.of_nat (length es) < 2 ^ 63 ->
  exists q', load big c r (recs_of b r es) (r_last x + 1) q lst confs =
      Some (q', match es with [] => lst | _ => r_last x + Z.of_nat (length es) end, confs ++ filter is_conf es) /\
    TM q' (mk_tref (r_first x) (r_prev x) (r_terms x ++ map e_term es)).
Proof.
  intros Hr. induction es as [|e es IH]; intros q x lst confs T C M O B1 B2.
  - exists q. cbn [recs_of load filter map]. rewrite !app_nil_r. split; auto. destruct x; auto.
  - destruct C as [CI C], M as [M1 M2]. inversion O; subst. cbn [length] in B2.
    destruct (build_value_ok big c b e H1) as (v & EV). cbn [recs_of]. rewrite EV. cbn [load].
    assert (Hi : i64 (e_index e)) by (unfold i64; lia).
    rewrite decode_key by auto. rewrite Z.eqb_refl, CI, Z.eqb_refl. cbn [negb].
    destruct (build_head b e v _ H1 EV) as (ty & body & -> & TY & MP). pose proof H1 as [TE PE].
    rewrite app_length, head_len. replace (12 + length body <? LOG_HEAD_SIZE)%nat with false by (symmetry; apply Nat.ltb_ge; unfold LOG_HEAD_SIZE; lia).
    rewrite head_body, head_type_ok, head_term_ok by lia.
    destruct (tm_append_ok q x (e_term e) T) as (q1 & E1 & T1). { split; auto. lia. }
    rewrite E1. cbn [ref_step] in T1.
    assert (RL : r_last (mk_tref (r_first x) (r_prev x) (r_terms x ++ [e_term e])) = r_last x + 1).
    { unfold r_last. cbn [r_first r_terms]. rewrite app_length. cbn [length]. lia. }
    assert (NX : forall lst confs, exists q', load big c r (recs_of b r es) (r_last x + 1 + 1) q1 lst confs =
        Some (q', match es with [] => lst | _ => r_last x + 1 + Z.of_nat (length es) end, confs ++ filter is_conf es) /\
        TM q' (mk_tref (r_first x) (r_prev x) (r_terms x ++ map e_term (e :: es)))).
    { intros lst' confs'. rewrite <- RL. destruct (IH q1 _ lst' confs' T1) as (q2 & E2 & T2); auto; rewrite ?RL; auto; try lia.
      - cbn [r_terms r_prev]. rewrite last_last. auto.
      - exists q2. split; auto. rewrite RL in E2. exact E2. cbn [r_first r_prev r_terms] in T2. rewrite <- app_assoc in T2. exact T2. }
    assert (LS : forall a, match es with [] => r_last x + 1 | _ => r_last x + 1 + Z.of_nat (length es) end = a -> a = r_last x + Z.of_nat (S (length es))).
    { intros a <-. destruct es; cbn [length]; lia. }
    unfold ENTRY_TYPE_CONFIGURATION. cbn [filter]. unfold is_conf at 1.
    destruct (e_pay e) as [|d|p o|t] eqn:EP; [| | |contradiction]; destruct MP as [-> ->]; cbn [Z.eqb Pos.eqb].
    + destruct (NX (r_last x + 1) confs) as (q2 & E2 & T2). exists q2. split; auto. rewrite E2. f_equal. f_equal. f_equal. apply LS; auto.
    + destruct (NX (r_last x + 1) confs) as (q2 & E2 & T2). exists q2. split; auto. rewrite E2. f_equal. f_equal. f_equal. apply LS; auto.
    + rewrite parse_back by auto.
      destruct (NX (r_last x + 1) (confs ++ [mk_entry (r_last x + 1) (e_term e) (PConf p o)])) as (q2 & E2 & T2). exists q2. split; auto.
      rewrite E2. f_equal. f_equal; [f_equal; apply LS; auto|]. rewrite <- app_assoc. cbn [app]. f_equal. f_equal.
      destruct e; cbn in *; congruence.
Qed.
Lemma TM_prev q f ts p : TM q (mk_tref f 0 ts) -> mono p ts -> 0 <= p -> TM q (mk_tref f p ts).
Proof.
  intros [A B C D E F G] M P. constructor; cbn [r_first r_prev r_terms] in *; auto.
  intros i t I L. specialize (C _ _ I L). lia.
Qed.
Lemma mono_zero p ts : 0 <= p -> mono p ts -> mono 0 ts.
Proof. destruct ts; cbn; auto. intros H [A B]. split; auto. lia. Qed.
Lemma open_scan b d r s cl : i64 r -> ksorted (db d) -> known d -> RD big c b d r s cl -> good c b s ->
  exists q lst, load big c r (kfilter (same_prefix 9 (data_key big r (l_first s))) (kseek (data_key big r (l_first s)) (db d))) (l_first s) [] 0 []
    = Some (q, lst, filter is_conf (l_ents s)) /\ MemOk (mk_mem (l_first s) (if lst =? 0 then l_first s - 1 else lst) q (filter is_conf (l_ents s))) s.
Proof.
  intros Hr HS KN R G. rewrite (scan_ok b d r s cl) by auto. destruct G as [F L P C M O]. unfold l_last in L. set (x := mk_tref (l_first s) 0 []).
  assert (X : r_last x + 1 = l_first s) by (unfold r_last, x; cbn; lia).
  pose proof (proj1 (terms_mono _ _) M) as MM. pose proof (mono_zero _ _ P MM) as M0.
  destruct (load_ok b r (l_ents s) Hr [] x 0 [] (tm_empty _ _)) as (q & E & T); rewrite ?X; auto; try lia.
  { apply terms_mono. exact M0. }
  rewrite X in E. eexists q, _. split; [exact E|]. constructor; cbn [m_first m_last m_tmap]; auto.
  - unfold l_last. destruct (l_ents s) as [|e es]; [cbn; lia|]. replace (r_last x) with (l_first s - 1) by lia.
    destruct (Z.eqb_spec (l_first s - 1 + Z.of_nat (length (e :: es))) 0); cbn [length] in *; lia.
  - unfold ref_of. apply TM_prev; auto.
Qed.
Lemma open_ok b d r s cl : i64 r -> ksorted (db d) -> known d -> RD big c b d r s cl -> good c b s ->
  exists m, init_storage big c r d = Some (d, m) /\ MemOk m s /\ m_confs m = filter is_conf (l_ents s).
Proof.
  intros Hr HS KN R G. destruct (open_scan b d r s cl Hr HS KN R G) as (q & lst & E & M).
  unfold init_storage. pose proof (rd_meta _ _ _ _ _ _ _ R) as MV. unfold mv in MV. rewrite MV.
  rewrite int64_roundtrip by (destruct G; unfold i64; lia). cbv zeta. rewrite E. eexists. split; [reflexivity|]. auto.
Qed.
Lemma open_new b d r : i64 r -> ksorted (db d) -> known d -> mv big d r = None -> (forall i, i64 i -> dv big d r i = None) ->
  let d1 := do_write d (wmeta big r 1) in
  RD big c b d1 r empty_log true /\
  exists m, init_storage big c r d = Some (d1, m) /\ MemOk m empty_log /\ m_confs m = [].
Proof.
  intros Hr HS KN M0 D0 d1.
  assert (FR : frame big d d1 r) by (apply frame_write; auto; apply wmeta_ok).
  assert (R : RD big c b d1 r empty_log true).
  { constructor.
    - apply wmeta_mv; auto.
    - intros [|j] e E; discriminate.
    - intros. unfold d1. rewrite wmeta_dv; auto.
    - intros. unfold d1. rewrite wmeta_dv; auto. }
  assert (KN1 : known d1).
  { intros k v I. destruct (fr_keys _ _ _ _ FR _ _ I) as [(v' & I')|O]; eauto. }
  split; auto. destruct (open_scan b d1 r empty_log true Hr (fr_sorted _ _ _ _ FR) KN1 R) as (q & lst & E & M).
  { apply good_empty. lia. }
  unfold init_storage. unfold mv in M0. rewrite M0. cbv zeta. fold (wmeta big r 1). fold d1. cbn [empty_log l_first] in E. rewrite E.
  eexists. split; [reflexivity|]. split; [exact M|reflexivity].
Qed.

(* ---- the invariant of a store ---- *)
Record Inv (s : sys) (A : spec) : Prop := {
  iv_db : ksorted (db (s_disk s));
  iv_bdb : ksorted (bdb (s_disk s));
  iv_known : forall k v, In (k, v) (db (s_disk s)) -> exists r, i64 r /\ p_log A r <> None /\ own_key big r k;
  iv_log : forall r l, p_log A r = Some l -> i64 r /\ good c (binlog r) l /\ RD big c (binlog r) (s_disk s) r l (p_clean A r) /\
             forall e ts x, In e (l_ents l) -> prewrite_ts c (binlog r) e = Some (ts, x) -> In (ts, x) (p_ts A);
  iv_ts : forall ts x, In (ts, x) (p_ts A) -> i64 ts /\ kget (binlog_key big ts) (bdb (s_disk s)) = Some x;
  iv_open : forall r, p_open A r = true -> exists l m, p_log A r = Some l /\ s_mem s r = Some m /\ MemOk m l;
  iv_fmap : forall r f, s_fmap s r = Some f -> exists l, p_log A r = Some l /\ f <= l_first l
}.
Lemma inv_init : Inv init_sys init_spec.
Proof. constructor; cbn; try (constructor); try tauto; try discriminate. Qed.

Lemma binlog_eqb a b' : i64 a -> i64 b' -> beqb (binlog_key big a) (binlog_key big b') = (a =? b').
Proof. intros. unfold beqb, binlog_key. rewrite app_i64_cmp by auto. destruct (Z.compare_spec a b'), (Z.eqb_spec a b'); auto; lia. Qed.
Lemma bput_get ts x l : i64 ts -> (forall t y, In (t, y) l -> i64 t) -> (forall y, In (ts, y) l -> y = x) ->
  forall s, ksorted s -> kget (binlog_key big ts) s = Some x \/ In (ts, x) l -> kget (binlog_key big ts) (bput big l s) = Some x.
Proof.
  intros Ht. unfold bput. induction l as [|[t y] l IH]; intros HI U s HS H; cbn [map puts fold_left fst snd].
  - destruct H as [H|[]]; auto.
  - apply IH.
    + intros; eapply HI; right; eauto.
    + intros; apply U; right; auto.
    + apply kput_sorted; auto.
    + rewrite kget_put by auto. rewrite binlog_eqb by (auto; eapply HI; left; eauto).
      destruct (Z.eqb_spec ts t).
      * left. subst. f_equal. apply U. left. auto.
      * destruct H as [H|[E|H]]; auto. inversion E. congruence.
Qed.
Lemma bput_sorted l s : ksorted s -> ksorted (bput big l s).
Proof. apply puts_sorted. Qed.
Lemma prewrites_in b es ts x : In (ts, x) (prewrites c b es) <-> exists e, In e es /\ prewrite_ts c b e = Some (ts, x).
Proof.
  unfold prewrites. rewrite in_flat_map. split.
  - intros (e & I & H). exists e. split; auto. destruct (prewrite_ts c b e); [destruct H as [->|[]]; auto|destruct H].
  - intros (e & I & H). exists e. split; auto. rewrite H. left. auto.
Qed.
Lemma legal_entries b l o : legal_op c b l o -> Forall (entry_ok c b) (appended o).
Proof. destruct o; cbn; try constructor. tauto. Qed.
Lemma prewrite_i64 b es ts x : Forall (entry_ok c b) es -> In (ts, x) (prewrites c b es) -> i64 ts.
Proof.
  intros F I. apply prewrites_in in I. destruct I as (e & I & E). rewrite Forall_forall in F. destruct (F _ I) as [_ P].
  pose proof E as E'. unfold prewrite_ts in E. destruct (e_pay e); try discriminate. destruct b; [|discriminate]. destruct (P eq_refl) as [_ Q]. eauto.
Qed.
Lemma spec_ents l o e : In e (l_ents (spec_op l o)) -> In e (l_ents l) \/ In e (appended o).
Proof.
  destruct o; cbn [spec_op appended].
  - cbn. apply in_app_or.
  - destruct (k <=? l_first l); auto. cbn. intros I. left. eapply skipn_in; eauto.
  - destruct (l_last l <=? k); auto. cbn. intros I. left. rewrite <- (firstn_skipn (Z.to_nat (k + 1 - l_first l)) (l_ents l)). apply in_or_app. auto.
  - cbn. tauto.
Qed.
Lemma crash_ents l o n e : In e (l_ents (crash_result l o n)) -> In e (l_ents l) \/ (n <> 0%nat /\ In e (appended o)).
Proof.
  destruct n as [|n]; cbn [crash_result]; auto. intros I. 
  assert (Q : In e (l_ents (spec_op l o)) \/ exists k dr, In e (l_ents (spec_op l (RTruncPrefix k dr)))).
  { destruct o; auto. destruct (_ && _); eauto. }
  destruct Q as [Q|(k & dr & Q)]; apply spec_ents in Q; destruct Q as [Q|Q]; auto; try (right; split; [lia|exact Q]). destruct Q.
Qed.
Lemma spec_first b l o : legal_op c b l o -> l_first l <= l_first (spec_op l o).
Proof.
  intros H. destruct o; cbn [spec_op legal_op] in *; [cbn; lia| | |cbn; lia].
  - destruct (Z.leb_spec k (l_first l)); cbn [l_first]; lia.
  - destruct (l_last l <=? k); cbn [l_first]; lia.
Qed.

(* operations *)
Lemma inv_op A s r d' l' ts' cl' m' fm op' :
  Inv s A -> i64 r ->
  frame big (s_disk s) d' r -> ksorted (bdb d') ->
  (exists l, p_log A r = Some l /\ (l_first l <= l_first l' \/ fm = fun _ => None)) ->
  good c (binlog r) l' -> RD big c (binlog r) d' r l' (cl' r) ->
  (forall r', r' <> r -> cl' r' = p_clean A r') ->
  (forall ts x, In (ts, x) (p_ts A) -> In (ts, x) ts') ->
  (forall ts x, In (ts, x) ts' -> i64 ts /\ kget (binlog_key big ts) (bdb d') = Some x) ->
  (forall e ts x, In e (l_ents l') -> prewrite_ts c (binlog r) e = Some (ts, x) -> In (ts, x) ts') ->
  (forall r', op' r' = true -> p_open A r' = true) ->
  (forall r', op' r' = true -> r' <> r -> m' r' = s_mem s r') ->
  (op' r = true -> exists m, m' r = Some m /\ MemOk m l') ->
  (forall r' f, fm r' = Some f -> s_fmap s r' = Some f) ->
  Inv (mk_sys d' m' fm) (mk_spec (upd (p_log A) r (Some l')) op' cl' ts').
Proof.
  intros [I1 I2 I3 I4 I5 I6 I7] Hr FR SB (l & EL & LF) G R CL TS1 TS2 TS3 OP1 OP2 OP3 FM.
  constructor; cbn [s_disk s_mem s_fmap p_log p_open p_clean p_ts].
  - apply FR.
  - auto.
  - intros k v I. destruct (fr_keys _ _ _ _ FR _ _ I) as [(v' & I')|O].
    + destruct (I3 _ _ I') as (r' & H1 & H2 & H3). exists r'. split; auto. split; auto. unfold upd. destruct (r' =? r); congruence.
    + exists r. split; auto. split; auto. unfold upd. rewrite Z.eqb_refl. discriminate.
  - intros r' l0. unfold upd. destruct (Z.eqb_spec r' r) as [->|N].
    + intros E. inversion E; subst l0. split; auto.
    + intros E. destruct (I4 _ _ E) as (H1 & H2 & H3 & H4). split; auto. split; auto. split.
      * rewrite CL by auto. apply RD_ext with (d := s_disk s); auto. { apply FR; auto. } intros; apply FR; auto.
      * intros. eapply TS1, H4; eauto.
  - auto.
  - intros r' E. destruct (Z.eq_dec r' r) as [->|N].
    + destruct (OP3 E) as (m & E1 & E2). exists l', m. unfold upd. rewrite Z.eqb_refl. auto.
    + destruct (I6 _ (OP1 _ E)) as (l0 & m & E1 & E2 & E3). exists l0, m. unfold upd. destruct (Z.eqb_spec r' r); [lia|].
      rewrite OP2 by auto. auto.
  - intros r' f E. destruct LF as [LF|LF]; [|rewrite LF in E; discriminate]. destruct (I7 _ _ (FM _ _ E)) as (l0 & E1 & E2).
    unfold upd. destruct (Z.eqb_spec r' r) as [->|N]; eauto. exists l'. split; auto. assert (l0 = l) by congruence. subst. lia.
Qed.

Lemma inv_known_d s A : Inv s A -> known (s_disk s).
Proof. intros I k v H. destruct (iv_known _ _ I _ _ H) as (r & H1 & _ & H2). eauto. Qed.
Lemma inv_fresh s A r : Inv s A -> i64 r -> p_log A r = None -> mv big (s_disk s) r = None /\ forall i, i64 i -> dv big (s_disk s) r i = None.
Proof.
  intros I Hr E. assert (U : forall k v, own_key big r k -> kget k (db (s_disk s)) = Some v -> False).
  { intros k v O K. apply kget_in in K; [|apply I]. destruct (iv_known _ _ I _ _ K) as (r' & H1 & H2 & O').
    assert (r = r'); [|congruence].
    destruct O as [->|(i & Hi & ->)], O' as [E'|(j & Hj & E')]; apply beqb_eq in E'.
    - rewrite meta_eqb in E' by auto. lia.
    - rewrite meta_data_eqb in E' by auto. discriminate.
    - rewrite data_meta_eqb in E' by auto. discriminate.
    - rewrite data_eqb in E' by auto. lia. }
  split.
  - unfold mv. destruct (kget _ _) eqn:K; auto. exfalso. eapply U; eauto. left. auto.
  - intros i Hi. unfold dv. destruct (kget _ _) eqn:K; auto. exfalso. eapply U; eauto. right. eauto.
Qed.
Lemma inv_step s A l : Inv s A -> (forall r, p_log A r = None -> p_clean A r = true) -> legal c binlog A l ->
  exists s', step big c binlog s l = Some s' /\ Inv s' (spec_step c binlog A l).
Proof.
  intros I CLN L. destruct l as [r|r o|r o n| |dr sp]; cbn [step spec_step legal] in *.
  - (* open *) unfold log_of. destruct (p_log A r) as [l|] eqn:EL.
    + destruct (iv_log _ _ I _ _ EL) as (Hr & G & R & TS).
      destruct (open_ok (binlog r) (s_disk s) r l _ Hr (iv_db _ _ I) (inv_known_d _ _ I) R G) as (m & E & M & _).
      rewrite E. eexists. split; [reflexivity|]. destruct I as [I1 I2 I3 I4 I5 I6 I7].
      assert (U : forall r', upd (p_log A) r (Some l) r' = p_log A r') by (intros r'; unfold upd; destruct (Z.eqb_spec r' r); congruence).
      constructor; cbn [s_disk s_mem s_fmap p_log p_open p_clean p_ts]; auto.
      * intros k v H. destruct (I3 _ _ H) as (r' & A1 & A2 & A3). exists r'. rewrite U. auto.
      * intros r' l0. rewrite U. apply I4.
      * intros r' E'. destruct (Z.eqb_spec r' r) as [E0|N].
        { subst r'. exists l, m. rewrite U. unfold upd. rewrite Z.eqb_refl. auto. }
        { unfold upd in E'. destruct (Z.eqb_spec r' r); [lia|]. destruct (I6 _ E') as (l0 & m0 & X). exists l0, m0. rewrite U. unfold upd. destruct (Z.eqb_spec r' r); [lia|]. auto. }
      * intros r' f E'. unfold upd in E'. destruct (Z.eqb_spec r' r) as [E0|N].
        { subst r'. exists l. rewrite U. split; auto. inversion E'; subst. rewrite (mo_first _ _ M). lia. }
        { destruct (I7 _ _ E') as (l0 & X). exists l0. rewrite U. auto. }
    + destruct (inv_fresh _ _ _ I L EL) as [M0 D0].
      destruct (open_new (binlog r) (s_disk s) r L (iv_db _ _ I) (inv_known_d _ _ I) M0 D0) as (R & m & E & M & _).
      rewrite E. eexists. split; [reflexivity|].
      assert (FR : frame big (s_disk s) (do_write (s_disk s) (wmeta big r 1)) r) by (apply frame_write; auto; [apply I|apply wmeta_ok]).
      destruct I as [I1 I2 I3 I4 I5 I6 I7].
      constructor; cbn [s_disk s_mem s_fmap p_log p_open p_clean p_ts]; auto.
      * apply FR.
      * intros k v H. destruct (fr_keys _ _ _ _ FR _ _ H) as [(v' & I')|O].
        { destruct (I3 _ _ I') as (r' & H1 & H2 & H3). exists r'. split; auto. split; auto. unfold upd. destruct (r' =? r); congruence. }
        { exists r. split; auto. split; auto. unfold upd. rewrite Z.eqb_refl. discriminate. }
      * intros r' l0. unfold upd. destruct (Z.eqb_spec r' r) as [->|N].
        { intros E'. inversion E'; subst l0. split; auto. split; [apply good_empty; lia|]. split; [rewrite CLN by auto; exact R|]. intros e ts x []. }
        { intros E'. destruct (I4 _ _ E') as (H1 & H2 & H3 & H4). split; auto. split; auto. split; auto.
          apply RD_ext with (d := s_disk s); auto. { apply FR; auto. } intros; apply FR; auto. }
      * intros r' E'. unfold upd in *. destruct (Z.eqb_spec r' r) as [E0|N]; [subst r'|auto]. exists empty_log, m. auto.
      * intros r' f E'. unfold upd in *. destruct (Z.eqb_spec r' r) as [E0|N]; [subst r'|eauto]. exists empty_log. split; auto.
        inversion E'; subst. rewrite (mo_first _ _ M). lia.
  - (* an operation *) destruct L as (OP & LG & UN). destruct (iv_open _ _ I _ OP) as (l & m & EL & EM & M). unfold log_of in *. rewrite EL in *.
    rewrite EM. destruct (iv_log _ _ I _ _ EL) as (Hr & G & R & TS).
    pose proof (op_ok big c (binlog r) _ r l _ m o Hr (iv_db _ _ I) R G M LG) as OR.
    destruct (do_rop big c (binlog r) r m o) as [[m' ws] rc]. destruct OR as [O1 O2 O3 O4 O5 O6]. cbn [fst snd] in *.
    eexists. split; [reflexivity|].
    assert (BD : bdb (do_writes (s_disk s) ws) = bput big (prewrites c (binlog r) (appended o)) (bdb (s_disk s))).
    { specialize (O6 (S (length ws))). rewrite firstn_all2 in O6 by lia. exact O6. }
    eapply inv_op; eauto.
    + apply frame_writes; auto. apply I.
    + rewrite BD. apply bput_sorted. apply I.
    + exists l. split; auto. left. eapply spec_first; eauto.
    + intros. apply in_or_app. auto.
    + intros ts x IN. rewrite BD. pose proof (legal_entries _ _ _ LG) as EO. apply in_app_or in IN.
      assert (Ht : i64 ts). { destruct IN as [IN|IN]; [apply (iv_ts _ _ I _ _ IN)|eapply prewrite_i64; eauto]. }
      split; auto. apply bput_get; auto.
      * intros; eapply prewrite_i64; eauto.
      * intros y IY. apply (UN ts y x); auto. apply in_or_app. auto.
      * apply I.
      * destruct IN as [IN|IN]; auto. left. apply (iv_ts _ _ I _ _ IN).
    + intros e ts x IE PE. apply in_or_app. apply spec_ents in IE. destruct IE as [IE|IE]; [left; eauto|right].
      apply prewrites_in. eauto.
    + intros. unfold upd. destruct (Z.eqb_spec r' r); [lia|auto].
    + intros. exists m'. unfold upd. rewrite Z.eqb_refl. auto.
  - (* a stop inside an operation *) destruct L as (OP & LG & UN). destruct (iv_open _ _ I _ OP) as (l & m & EL & EM & M). unfold log_of in *. rewrite EL in *.
    rewrite EM. destruct (iv_log _ _ I _ _ EL) as (Hr & G & R & TS).
    pose proof (op_ok big c (binlog r) _ r l _ m o Hr (iv_db _ _ I) R G M LG) as OR.
    destruct (do_rop big c (binlog r) r m o) as [[m' ws] rc]. destruct OR as [O1 O2 O3 O4 O5 O6]. cbn [fst snd] in *.
    eexists. split; [reflexivity|]. destruct (O5 n) as [R' G']. specialize (O6 n).
    eapply inv_op; eauto.
    + apply frame_writes; auto. apply I. apply Forall_forall. intros w IW. rewrite Forall_forall in O2. apply O2.
      rewrite <- (firstn_skipn n ws). apply in_or_app. auto.
    + rewrite O6. destruct n; [apply I|apply bput_sorted; apply I].
    + unfold upd. rewrite Z.eqb_refl. auto.
    + intros. unfold upd. destruct (Z.eqb_spec r' r); [lia|auto].
    + intros. apply in_or_app. auto.
    + intros ts x IN. rewrite O6. pose proof (legal_entries _ _ _ LG) as EO. destruct n.
      { rewrite app_nil_r in IN. apply I. auto. }
      apply in_app_or in IN.
      assert (Ht : i64 ts). { destruct IN as [IN|IN]; [apply (iv_ts _ _ I _ _ IN)|eapply prewrite_i64; eauto]. }
      split; auto. apply bput_get; auto.
      * intros; eapply prewrite_i64; eauto.
      * intros y IY. apply (UN ts y x); auto. apply in_or_app. auto.
      * apply I.
      * destruct IN as [IN|IN]; auto. left. apply (iv_ts _ _ I _ _ IN).
    + intros e ts x IE PE. apply in_or_app. apply crash_ents in IE. destruct IE as [IE|[NZ IE]]; [left; eauto|right].
      destruct n; [congruence|]. apply prewrites_in. eauto.
    + discriminate.
    + discriminate.
    + discriminate.
    + discriminate.
  - (* a stop *) eexists. split; [reflexivity|]. destruct I as [I1 I2 I3 I4 I5 I6 I7].
    constructor; cbn [s_disk s_mem s_fmap p_log p_open p_clean p_ts]; auto; discriminate.
  - (* compaction *) eexists. split; [reflexivity|]. destruct I as [I1 I2 I3 I4 I5 I6 I7].
    constructor; cbn [s_disk s_mem s_fmap db bdb]; auto.
    + apply kfilter_sorted; auto.
    + intros k v H. apply filter_In in H. destruct H. eauto.
    + intros r l EL. destruct (I4 _ _ EL) as (H1 & H2 & H3 & H4). split; auto. split; auto. split; auto.
      assert (KEEP : forall i, i64 i -> l_first l <= i -> filter_removes big (s_fmap s) sp (data_key big r i) = false).
      { intros i Hi Ge. unfold filter_removes. rewrite decode_key by auto. destruct (s_fmap s r) as [f|] eqn:EF; auto.
        destruct (I7 _ _ EF) as (l0 & E0 & LE). assert (l0 = l) by congruence. subst l0. destruct (Z.ltb_spec f (sp r)); lia. }
      destruct H3 as [R1 R2 R3 R4]. constructor; unfold mv, dv in *; cbn [db].
      * rewrite kget_filter by auto. unfold filter_removes. rewrite decode_meta. rewrite Bool.andb_false_r. exact R1.
      * intros j e E. destruct (R2 _ _ E) as (v & ob & E1 & E2). exists v, ob. split; auto. rewrite kget_filter by auto.
        assert (j < length (l_ents l))%nat by (apply nth_error_Some; congruence).
        rewrite KEEP; [|destruct H2; unfold l_last, i64 in *; lia|lia]. rewrite Bool.andb_false_r. auto.
      * intros. rewrite kget_filter by auto. rewrite R3 by auto. destruct (negb _); auto.
      * intros. rewrite kget_filter by auto. rewrite R4 by auto. destruct (negb _); auto.
Qed.
Definition clean_ok (A : spec) : Prop := forall r, p_log A r = None -> p_clean A r = true.
Lemma clean_step A l : clean_ok A -> clean_ok (spec_step c binlog A l).
Proof.
  intros H r. destruct l as [r0|r0 o|r0 o n| |dr sp]; cbn; auto; unfold upd; destruct (r =? r0); auto; discriminate.
Qed.
Lemma run_inv ls : forall s A, Inv s A -> clean_ok A -> legal_run c binlog A ls ->
  exists s', run big c binlog s ls = Some s' /\ Inv s' (spec_run c binlog A ls).
Proof.
  induction ls as [|l ls IH]; intros s A I CK L; cbn [run spec_run fold_left]; eauto.
  destruct L as [L1 L2]. destruct (inv_step s A l I CK L1) as (s1 & E & I1). rewrite E. apply IH; auto. apply clean_step; auto.
Qed.
Lemma mem_terms m l : MemOk m l -> forall i, get_term m i = match entry_at l i with Some e => e_term e | None => 0 end.
Proof.
  intros [M1 M2 M3] i. unfold get_term, entry_at. rewrite M1, M2. destruct (Z.ltb_spec i (l_first l)); auto. cbn [orb]. unfold l_last.
  destruct (Z.ltb_spec (l_first l + Z.of_nat (length (l_ents l)) - 1) i).
  - rewrite (proj2 (nth_error_None _ _)) by lia. auto.
  - destruct (nth_error (l_ents l) (Z.to_nat (i - l_first l))) as [e|] eqn:E; [|apply nth_error_None in E; lia].
    pose proof (TM_get _ _ M3 (Z.to_nat (i - l_first l)) (e_term e)) as T. unfold ref_of in T. cbn [r_first r_terms] in T.
    replace (l_first l + Z.of_nat (Z.to_nat (i - l_first l))) with i in T by lia. apply T. rewrite nth_error_map, E. reflexivity.
Qed.
Lemma inv_answers s A r : Inv s A -> p_open A r = true -> exists m l, s_mem s r = Some m /\ p_log A r = Some l /\
  answers_like c binlog big s r m l (p_clean A r).
Proof.
  intros I O. destruct (iv_open _ _ I _ O) as (l & m & EL & EM & M). exists m, l. split; auto. split; auto.
  split; [apply M|]. split; [apply M|]. split; [apply mem_terms; auto|]. intros i Hi H.
  destruct (iv_log _ _ I _ _ EL) as (Hr & G & R & TS). unfold entry_at. destruct (Z.ltb_spec i (l_first l)).
  - destruct H as [H|H]; [lia|]. unfold get_entry. pose proof (rd_below _ _ _ _ _ _ _ R H i Hi) as N. unfold dv in N. rewrite N; auto.
  - destruct (nth_error (l_ents l) (Z.to_nat (i - l_first l))) as [e|] eqn:E.
    + destruct (rd_ent _ _ _ _ _ _ _ R _ _ E) as (v & ob & E1 & E2). replace (l_first l + Z.of_nat (Z.to_nat (i - l_first l))) with i in E2 by lia.
      pose proof (nth_error_In _ _ E) as IN. destruct G as [F L P C MO OK]. rewrite Forall_forall in OK.
      apply get_entry_ok with (v := v) (ob := ob); auto.
      * rewrite (consec_nth _ _ C _ _ E). lia.
      * intros ts x PE. apply (iv_ts _ _ I). eauto.
    + unfold get_entry. apply nth_error_None in E. pose proof (rd_above _ _ _ _ _ _ _ R i Hi) as N. unfold dv in N. rewrite N; auto. unfold l_last. lia.
Qed.
End Run.
