From Verif.AutoInc Require Import Model Spec Proofs.
From Coq Require DecimalZ DecimalPos.
From Coq Require Import DecimalString.
Local Open Scope Z_scope.

(* ---- snapshots ---- *)
Lemma undec_dec z : undec (dec z) = Some z.
Proof.
  unfold undec, dec. rewrite NilZero.isi.
  - rewrite DecimalZ.of_to. reflexivity.
  - destruct z; cbn; try discriminate. intros E. injection E. apply DecimalPos.Unsigned.to_uint_nonnil.
  - destruct z; cbn; try discriminate. intros E. injection E. apply DecimalPos.Unsigned.to_uint_nonnil.
Qed.

Definition nodup_keys (m : idmap) : Prop := NoDup (map fst m).
Lemma in_erase k t m : In k (map fst (erase t m)) -> In k (map fst m) /\ k <> t.
Proof.
  induction m as [|[a v] m IH]; cbn; [tauto|]. destruct (Z.eqb_spec a t); cbn; intros H.
  - apply IH in H. tauto.
  - destruct H; [subst; tauto|]. apply IH in H. tauto.
Qed.
Lemma nodup_erase t m : nodup_keys m -> nodup_keys (erase t m).
Proof.
  unfold nodup_keys. induction m as [|[a v] m IH]; cbn; intros H; [constructor|]. inversion H; subst.
  destruct (a =? t); auto. cbn. constructor; auto. intros Q. apply in_erase in Q. tauto.
Qed.
Lemma nodup_assign t v m : nodup_keys m -> nodup_keys (assign t v m).
Proof.
  intros H. constructor; [|apply nodup_erase; auto]. intros Q. apply in_erase in Q. tauto.
Qed.
Lemma nodup_step m o : nodup_keys m -> nodup_keys (fst (apply_op m o)).
Proof.
  intros H. destruct o; cbn [apply_op]; unfold add_table_id, drop_table_id, gen_id, update; destruct (lookup _ m); cbn [fst]; auto using nodup_assign, nodup_erase.
  destruct start as [s|], incr; cbn [fst]; auto using nodup_assign. destruct (_ && _); cbn; auto using nodup_assign.
Qed.
Lemma lookup_notin t m : ~ In t (map fst m) -> lookup t m = None.
Proof. induction m as [|[k v] m IH]; cbn; intros H; auto. destruct (Z.eqb_spec k t); [tauto|]. apply IH. tauto. Qed.

Lemma parse_save m acc : nodup_keys m -> exists m', parse_members (save_auto_increment m) acc = Some m' /\
  forall t, lookup t m' = match lookup t m with Some v => Some v | None => lookup t acc end.
Proof.
  revert acc. induction m as [|[k v] m IH]; intros acc ND; cbn.
  - exists acc. auto.
  - rewrite !undec_dec. inversion ND; subst. destruct (IH (assign k v acc) H2) as (m' & E & L). exists m'. split; auto.
    intros t. rewrite L, lookup_assign. cbn in H1. destruct (Z.eqb_spec k t); [subst; rewrite lookup_notin by auto; reflexivity|reflexivity].
Qed.

Definition eqmap (a b : idmap) : Prop := forall t, lookup t a = lookup t b.
Lemma eq_assign a b t v : eqmap a b -> eqmap (assign t v a) (assign t v b).
Proof. intros H u. rewrite !lookup_assign, H. auto. Qed.
Lemma eq_erase a b t : eqmap a b -> eqmap (erase t a) (erase t b).
Proof. intros H u. destruct (Z.eq_dec u t); [subst; rewrite !lookup_erase_eq; auto|rewrite !lookup_erase_neq by auto; auto]. Qed.
Lemma eq_step a b o : eqmap a b -> eqmap (fst (apply_op a o)) (fst (apply_op b o)) /\ snd (apply_op a o) = snd (apply_op b o).
Proof.
  intros H. destruct o; cbn [apply_op]; unfold add_table_id, drop_table_id, gen_id, update; rewrite (H t); destruct (lookup t b); cbn [fst snd]; auto using eq_assign, eq_erase.
  destruct start as [s|], incr; cbn [fst snd]; auto using eq_assign. destruct (_ && _); cbn; auto using eq_assign.
Qed.
Lemma eq_answers : forall l a b, eqmap a b -> snd (apply_log a l) = snd (apply_log b l).
Proof.
  induction l as [|o l IH]; intros a b H; cbn; auto. destruct (eq_step a b o H) as [E1 E2].
  destruct (apply_op a o), (apply_op b o). cbn in *. specialize (IH _ _ E1).
  destruct (apply_log i l), (apply_log i0 l). cbn in *. congruence.
Qed.

Lemma parse_nodup js : forall acc m, nodup_keys acc -> parse_members js acc = Some m -> nodup_keys m.
Proof.
  induction js as [|[k v] js IH]; cbn; intros acc m H E; [inversion E; subst; auto|].
  destruct (undec k), (undec v); try discriminate. eapply IH; [|eauto]. apply nodup_assign; auto.
Qed.

Definition rinv (log : list op) (r : replica) : Prop :=
  nodup_keys (r_map r) /\ eqmap (r_map r) (final [] (firstn (r_applied r) log)) /\ (r_applied r <= length log)%nat /\
  (fst (r_snap r) <= length log)%nat /\
  exists m, load_auto_increment (snd (r_snap r)) = Some m /\ nodup_keys m /\ eqmap m (final [] (firstn (fst (r_snap r)) log)).

Lemma rinv_step log r s r' : rinv log r -> replica_step log r s = Some r' -> rinv log r'.
Proof.
  intros (ND & EQ & LE & LS & m & LD & NDm & EQm) E. destruct s; cbn in E.
  - destruct (nth_error log (r_applied r)) as [o|] eqn:N; [|discriminate]. injection E as <-.
    unfold rinv. cbn [r_map r_applied r_snap]. split; [apply nodup_step; auto|].
    split; [rewrite (firstn_S _ _ _ N), final_app; cbn; apply eq_step; auto|].
    split; [assert (r_applied r < length log)%nat by (apply nth_error_Some; congruence); lia|]. split; auto.
    exists m. auto.
  - injection E as <-. unfold rinv. cbn. split; auto. split; auto. split; auto. split; auto.
    destruct (parse_save (r_map r) [] ND) as (m' & E & L). exists m'. split; auto. split.
    + eapply parse_nodup; [|exact E]. constructor.
    + intros t. rewrite L, <- EQ. destruct (lookup t (r_map r)); reflexivity.
  - rewrite LD in E. injection E as <-. unfold rinv. cbn. split; auto. split; auto. split; auto. split; auto. exists m. auto.
Qed.
Lemma rinv_init log : rinv log init_replica.
Proof.
  unfold rinv, init_replica. cbn. repeat split; try apply Nat.le_0_l; try constructor.
  exists []. repeat split; try constructor.
Qed.
Lemma rinv_run log : forall ss r r', rinv log r -> replica_run log r ss = Some r' -> rinv log r'.
Proof.
  induction ss as [|s ss IH]; cbn; intros r r' I E; [inversion E; subst; auto|].
  destruct (replica_step log r s) as [r1|] eqn:S1; [|discriminate]. eapply IH; [|eauto]. eapply rinv_step; eauto.
Qed.

Theorem replica_answers : forall log ss r i o,
  replica_run log init_replica ss = Some r -> r_applied r = i -> nth_error log i = Some o ->
  Some (snd (apply_op (r_map r) o)) = answer log i.
Proof.
  intros log ss r i o E <- N. pose proof (rinv_run log ss _ _ (rinv_init log) E) as (ND & EQ & _).
  unfold answer. rewrite (answer_at _ _ _ _ N). f_equal. apply eq_step. auto.
Qed.
Theorem replica_never_stuck : forall log ss r, replica_run log init_replica ss = Some r ->
  exists r', replica_step log r RRestart = Some r'.
Proof.
  intros log ss r E. pose proof (rinv_run log ss _ _ (rinv_init log) E) as (_ & _ & _ & _ & m & LD & _).
  cbn. rewrite LD. eauto.
Qed.

(* ---- INSERT ---- *)
Lemma as_int64_id x : - 2 ^ 63 <= x < 2 ^ 63 -> as_int64 x = x.
Proof.
  intros H. unfold as_int64. destruct (Z_lt_ge_dec x 0).
  - replace (x mod 2 ^ 64) with (x + 2 ^ 64) by (apply Z.mod_unique with (-1); lia). destruct (Z.ltb_spec (x + 2 ^ 64) (2 ^ 63)); lia.
  - rewrite Z.mod_small by lia. destruct (Z.ltb_spec x (2 ^ 63)); lia.
Qed.
Lemma needs_id_spec v : row_range v -> needs_id v = true <-> wants_id v.
Proof.
  unfold wants_id. destruct v as [x|]; cbn; intros H; [|tauto]. rewrite as_int64_id by auto. rewrite Z.eqb_eq.
  split; intros; [subst; auto|]. destruct H0; congruence.
Qed.

(* number of rows needing an id *)
Fixpoint nneed (rows : list (option Z)) : Z :=
  match rows with [] => 0 | v :: r => (if needs_id v then 1 else 0) + nneed r end.
Fixpoint nmax (rows : list (option Z)) (mx : Z) : Z :=
  match rows with [] => mx | v :: r => nmax r (if needs_id v then mx else match v with Some x => Z.max mx x | None => mx end) end.
Lemma nneed_range rows : 0 <= nneed rows <= Z.of_nat (length rows).
Proof. induction rows as [|v r IH]; cbn [nneed length]; [lia|]. destruct (needs_id v); lia. Qed.
Lemma scan_eq : forall rows c mx, Forall row_range rows -> scan rows c mx = (c + nneed rows, nmax rows mx).
Proof.
  induction rows as [|v r IH]; intros c mx F; cbn [scan nneed nmax]; [f_equal; lia|]. inversion F; subst.
  destruct (needs_id v) eqn:N; [rewrite IH by auto; f_equal; lia|]. destruct v as [x|]; [|discriminate].
  cbn in H1. rewrite as_int64_id by auto. rewrite IH by auto. f_equal. f_equal. destruct (Z.ltb_spec mx x); lia.
Qed.
Lemma nmax_ge rows : forall mx, mx <= nmax rows mx.
Proof. induction rows as [|v r IH]; intros mx; cbn [nmax]; [lia|]. etransitivity; [|apply IH]. destruct (needs_id v); [lia|]. destruct v; lia. Qed.
Lemma nmax_in rows e : forall mx, Forall row_range rows -> explicit rows e -> e <= nmax rows mx.
Proof.
  induction rows as [|v r IH]; intros mx F [I NZ]; [destruct I|]. inversion F; subst. cbn [nmax]. destruct I as [->|I].
  - etransitivity; [|apply nmax_ge]. replace (needs_id (Some e)) with false; [lia|].
    symmetry. apply not_true_iff_false. rewrite needs_id_spec by auto. intros [Q|Q]; congruence.
  - apply IH; auto. split; auto.
Qed.
Lemma nmax_bound rows B : forall mx, mx < B -> row_max rows <= B -> nmax rows mx < B.
Proof.
  induction rows as [|v r IH]; intros mx H1 H2; cbn [nmax]; [auto|].
  assert (row_max r <= row_max (v :: r)) by (unfold row_max; cbn [fold_right]; destruct v; lia).
  apply IH; [|lia]. destruct (needs_id v); auto. destruct v as [x|]; auto. change (row_max (Some x :: r)) with (Z.max (x + 1) (row_max r)) in H2. lia.
Qed.

Lemma fill_len rows : forall s, length (fill rows s) = length rows.
Proof. induction rows as [|v r IH]; intros s; cbn; auto. destruct (needs_id v); cbn; auto. Qed.
(* row k of the filled rows *)
Lemma fill_nth : forall rows s k v, nth_error rows k = Some v ->
  nth_error (fill rows s) k = Some (if needs_id v then Some (s + nneed (firstn k rows)) else v).
Proof.
  induction rows as [|a r IH]; intros s k v E; [destruct k; discriminate|]. cbn [fill].
  destruct k as [|k]; cbn in E.
  - injection E as ->. destruct (needs_id v); cbn; [f_equal; f_equal; lia|auto].
  - destruct (needs_id a) eqn:N; cbn [nth_error firstn nneed]; rewrite (IH _ _ _ E), N; destruct (needs_id v); auto; do 2 f_equal; lia.
Qed.
Lemma nneed_firstn_lt : forall rows k1 k2 v, nth_error rows k1 = Some v -> needs_id v = true -> (k1 < k2)%nat ->
  nneed (firstn k1 rows) < nneed (firstn k2 rows).
Proof.
  induction rows as [|a r IH]; intros k1 k2 v E N L; [destruct k1; discriminate|].
  destruct k2 as [|k2]; [lia|]. destruct k1 as [|k1]; cbn in E |- *.
  - injection E as ->. rewrite N. pose proof (nneed_range (firstn k2 r)). lia.
  - specialize (IH k1 k2 v E N ltac:(lia)). lia.
Qed.
Lemma nneed_firstn_le rows k : nneed (firstn k rows) <= nneed rows.
Proof. revert k. induction rows as [|a r IH]; intros [|k]; cbn; try lia; [pose proof (nneed_range r); destruct (needs_id a); lia|]. specialize (IH k). destruct (needs_id a); lia. Qed.
Lemma nneed_before : forall rows k v, nth_error rows k = Some v -> needs_id v = true -> nneed (firstn k rows) < nneed rows.
Proof.
  intros rows k v E N. assert (k < length rows)%nat by (apply nth_error_Some; congruence).
  pose proof (nneed_firstn_lt rows k (length rows) v E N H). rewrite firstn_all in H0. auto.
Qed.
Lemma nneed_zero : forall rows, nneed rows = 0 -> forall v, In v rows -> needs_id v = false.
Proof.
  induction rows as [|a r IH]; intros E v I; [destruct I|]. cbn in E. pose proof (nneed_range r).
  destruct (needs_id a) eqn:N; [lia|]. destruct I as [<-|I]; [auto|apply IH; auto; lia].
Qed.
Lemma first_need : forall rows, 0 < nneed rows -> exists k v, nth_error rows k = Some v /\ needs_id v = true /\ nneed (firstn k rows) = 0 /\
  forall j w, (j < k)%nat -> nth_error rows j = Some w -> needs_id w = false.
Proof.
  induction rows as [|a r IH]; cbn; intros H; [lia|]. destruct (needs_id a) eqn:N.
  - exists 0%nat, a. cbn. repeat split; auto. intros j w L. lia.
  - destruct (IH H) as (k & v & E & Nv & Z0 & B). exists (S k), v. cbn. rewrite N. repeat split; auto.
    intros [|j] w L Ew; cbn in Ew; [congruence|]. eapply B; [|eauto]. lia.
Qed.

(* what a successful INSERT does, from a state whose counter is old *)
Record ins_facts (t : Z) (ns : bool) (m m' : idmap) (rows rows' : list (option Z)) (last : option Z) (old : Z) := {
  if_len : length rows' = length rows;
  if_keep : forall k v, nth_error rows k = Some v -> ~ wants_id v -> nth_error rows' k = Some v;
  if_give : forall k v, nth_error rows k = Some v -> wants_id v -> exists x, nth_error rows' k = Some (Some x);
  if_incr : forall k1 k2 x1 x2, (k1 < k2)%nat -> generated rows rows' k1 x1 -> generated rows rows' k2 x2 -> x1 < x2;
  if_above : ns = false -> forall k x e, generated rows rows' k x -> explicit rows e -> e < x;
  if_pos : forall k x, generated rows rows' k x -> old <= x /\ 0 < x;
  if_last : forall k v, nth_error rows k = Some v -> wants_id v -> exists k0 x, last = Some x /\ generated rows rows' k0 x /\ (k0 <= k)%nat;
  if_next : (forall k x, generated rows rows' k x -> holds_at_least t (x + 1) m') /\
            (ns = false -> forall e, explicit rows e -> 0 < e -> holds_at_least t (e + 1) m');
}.

Lemma ins_ok t ns m m' rows rows' last old :
  Forall row_range rows -> lookup t m = Some old -> 0 <= old -> Z.max old (Z.max 1 (row_max rows)) + Z.of_nat (length rows) < 2 ^ 63 ->
  update_auto_inc t ns None m rows = (m', InsOk rows' last) ->
  ins_facts t ns m m' rows rows' last old.
Proof.
  intros F EL O B E. unfold update_auto_inc in E. rewrite scan_eq in E by auto.
  pose proof (nneed_range rows) as NR. pose proof (nmax_ge rows 0) as MG.
  assert (MB : nmax rows 0 < Z.max 1 (row_max rows)) by (apply nmax_bound; lia).
  assert (GEN : forall k x s, generated rows (fill rows s) k x -> x = s + nneed (firstn k rows) /\ exists v, nth_error rows k = Some v /\ needs_id v = true).
  { intros k x s (v & N1 & W & N2). rewrite (fill_nth _ _ _ _ N1) in N2.
    assert (RR : row_range v) by (rewrite Forall_forall in F; apply F; eapply nth_error_In; eauto).
    apply needs_id_spec in W; auto. rewrite W in N2. injection N2 as <-. split; eauto. }
  assert (RV : forall k v, nth_error rows k = Some v -> row_range v).
  { intros k v N. rewrite Forall_forall in F. apply F. eapply nth_error_In; eauto. }
  (* rows unchanged because nothing was missing *)
  assert (NONE : nneed rows = 0 -> forall k x, ~ generated rows rows k x).
  { intros Z0 k x (v & N1 & W & N2). apply needs_id_spec in W; [|eauto]. pose proof (nneed_zero rows Z0 v (nth_error_In _ _ N1)). congruence. }
  set (mx := if ns then 0 else nmax rows 0) in *.
  assert (MX : 0 <= mx < Z.max 1 (row_max rows)) by (unfold mx; destruct ns; lia).
  destruct ((0 + nneed rows =? 0) && (mx =? 0)) eqn:Q.
  - inversion E; subst m' rows' last. apply andb_true_iff in Q. destruct Q as [Q1 Q2]. apply Z.eqb_eq in Q1, Q2.
    assert (Z0 : nneed rows = 0) by lia. specialize (NONE Z0). constructor; auto.
    + intros k v N1 W. exfalso. apply needs_id_spec in W; [|eauto]. pose proof (nneed_zero rows Z0 v (nth_error_In _ _ N1)). congruence.
    + intros k1 k2 x1 x2 _ G. destruct (NONE _ _ G).
    + intros _ k x e G. destruct (NONE _ _ G).
    + intros k x G. destruct (NONE _ _ G).
    + intros k v N1 W. exfalso. apply needs_id_spec in W; [|eauto]. pose proof (nneed_zero rows Z0 v (nth_error_In _ _ N1)). congruence.
    + split; [intros k x G; destruct (NONE _ _ G)|]. intros -> e Ex Pe. pose proof (nmax_in rows e 0 F Ex). lia.
  - unfold gen_id in E. rewrite EL in E. rewrite (u64_small (mx + 1)) in E by lia.
    set (st := if old <? mx + 1 then mx + 1 else old) in *.
    assert (ST : Z.max old (mx + 1) = st) by (unfold st; destruct (Z.ltb_spec old (mx + 1)); lia).
    rewrite u64_small in E by lia. rewrite Z.add_0_l in *.
    destruct (Z.eqb_spec (nneed rows) 0) as [Z0|NZ].
    + inversion E; subst m' rows' last. clear E. specialize (NONE Z0). constructor; auto.
      * intros k v N1 W. exfalso. apply needs_id_spec in W; [|eauto]. pose proof (nneed_zero rows Z0 v (nth_error_In _ _ N1)). congruence.
      * intros k1 k2 x1 x2 _ G. destruct (NONE _ _ G).
      * intros _ k x e G. destruct (NONE _ _ G).
      * intros k x G. destruct (NONE _ _ G).
      * intros k v N1 W. exfalso. apply needs_id_spec in W; [|eauto]. pose proof (nneed_zero rows Z0 v (nth_error_In _ _ N1)). congruence.
      * split; [intros k x G; destruct (NONE _ _ G)|]. intros -> e Ex Pe. pose proof (nmax_in rows e 0 F Ex). apply hal_this. lia.
    + inversion E; subst m' rows' last. clear E. constructor.
      * apply fill_len.
      * intros k v N1 W. rewrite (fill_nth _ _ _ _ N1). destruct (needs_id v) eqn:N; auto. apply needs_id_spec in N; [tauto|eauto].
      * intros k v N1 W. rewrite (fill_nth _ _ _ _ N1). apply needs_id_spec in W; [|eauto]. rewrite W. eauto.
      * intros k1 k2 x1 x2 L G1 G2. apply GEN in G1, G2. destruct G1 as [-> (v & N1 & N2)], G2 as [-> _].
        pose proof (nneed_firstn_lt rows k1 k2 v N1 N2 L). lia.
      * intros -> k x e G Ex. apply GEN in G. destruct G as [-> _]. pose proof (nmax_in rows e 0 F Ex).
        pose proof (nneed_range (firstn k rows)). lia.
      * intros k x G. apply GEN in G. destruct G as [-> _]. pose proof (nneed_range (firstn k rows)). lia.
      * intros k v N1 W. destruct (first_need rows ltac:(lia)) as (k0 & v0 & E0 & N0 & Z0 & BB).
        exists k0, st. split; auto. split.
        -- exists v0. split; auto. split; [apply needs_id_spec; eauto|]. rewrite (fill_nth _ _ _ _ E0), N0, Z0. do 2 f_equal. lia.
        -- apply needs_id_spec in W; [|eauto]. destruct (le_lt_dec k0 k) as [L|L]; auto. pose proof (BB k v L N1). congruence.
      * split.
        -- intros k x G. apply GEN in G. destruct G as [-> (v & N1 & N2)]. pose proof (nneed_before rows k v N1 N2). apply hal_this. lia.
        -- intros -> e Ex Pe. pose proof (nmax_in rows e 0 F Ex). apply hal_this. lia.
Qed.

(* ---- histories ---- *)
Definition requests (es : list event) : list op :=
  flat_map (fun e => match e with EvOp o => [o] | EvIns t ns rows => match ins_request t ns rows with Some o => [o] | None => [] end end) es.
Fixpoint hfinal (m : idmap) (es : list event) : idmap := match es with [] => m | e :: es' => hfinal (fst (do_event m e)) es' end.
Lemma do_event_req m e : fst (do_event m e) = final m (requests [e]).
Proof.
  destruct e as [o|t ns rows]; cbn [do_event requests flat_map]; [reflexivity|].
  unfold ins_request, update_auto_inc. destruct (scan rows 0 0) as [cnt mx0]. set (mx := if ns then 0 else mx0).
  destruct ((cnt =? 0) && (mx =? 0)); [reflexivity|]. cbn [app final apply_op].
  destruct (gen_id m t cnt (Some mx)) as [m' [| |a b]] eqn:G; try reflexivity. destruct (cnt =? 0); reflexivity.
Qed.
Lemma requests_app a b : requests (a ++ b) = requests a ++ requests b.
Proof. apply flat_map_app. Qed.
Lemma hfinal_req : forall es m, hfinal m es = final m (requests es).
Proof.
  induction es as [|e es IH]; intros m; [reflexivity|]. cbn [hfinal]. rewrite IH, do_event_req, <- final_app.
  change (e :: es) with ([e] ++ es). rewrite requests_app. reflexivity.
Qed.
Lemma history_at : forall es m i e, nth_error es i = Some e ->
  nth_error (history m es) i = Some (snd (do_event (hfinal m (firstn i es)) e)).
Proof.
  induction es as [|a es IH]; intros m i e E; [destruct i; discriminate|]. cbn [history].
  destruct (do_event m a) as [m' r] eqn:D. destruct i as [|i]; cbn in E |- *.
  - inversion E; subst. rewrite D. reflexivity.
  - rewrite (IH m' i e E). rewrite D. reflexivity.
Qed.

Lemma req_ok e o : event_ok e -> ev_counted e < 2 ^ 63 -> ev_explicit e < 2 ^ 63 -> In o (requests [e]) ->
  op_ok o /\ explicit_of o <= ev_explicit e /\ counted o <= ev_counted e /\ requests [e] = [o].
Proof.
  intros OK HC HE I. destruct e as [o'|t ns rows]; cbn [requests flat_map] in *.
  - destruct I as [->|[]]. cbn in *. repeat split; auto; lia.
  - unfold ins_request in *. rewrite scan_eq in * by exact OK. cbn in HC, HE.
    pose proof (nneed_range rows). pose proof (nmax_ge rows 0). assert (nmax rows 0 < Z.max 1 (row_max rows)) by (apply nmax_bound; lia).
    destruct (_ && _); cbn [app] in I |- *; [destruct I|]. destruct I as [<-|[]]. cbn. unfold is_u64. destruct ns; repeat split; try lia.
Qed.
Lemma req_total es : Forall event_ok es -> ids_fit es ->
  Forall op_ok (requests es) /\ highest (requests es) <= fold_right (fun e a => Z.max (ev_explicit e) a) 0 es /\
  total (requests es) <= fold_right (fun e a => ev_counted e + a) 0 es.
Proof.
  intros F. unfold ids_fit. induction F as [|e es OK F IH]; intros FIT; [cbn; repeat split; auto; lia|].
  cbn [fold_right] in FIT.
  assert (P1 : 0 <= ev_counted e) by (destruct e; cbn; [apply counted_nonneg; auto|lia]).
  assert (P2 : 0 <= fold_right (fun e a => Z.max (ev_explicit e) a) 0 es) by (clear; induction es; cbn; lia).
  assert (P3 : 0 <= fold_right (fun e a => ev_counted e + a) 0 es).
  { clear - F. induction F as [|e es OK F IH]; cbn; [lia|]. assert (0 <= ev_counted e) by (destruct e; cbn; [apply counted_nonneg; auto|lia]). lia. }
  destruct IH as (A & B & C); [lia|].
  change (e :: es) with ([e] ++ es). rewrite requests_app. cbn [app fold_right].
  destruct (requests [e]) as [|o l] eqn:R; [cbn [app]; repeat split; auto; lia|].
  destruct (req_ok e o OK ltac:(lia) ltac:(lia)) as (X & Y & W & V); [rewrite R; left; auto|].
  rewrite R in V. injection V as ->. cbn [app highest total]. repeat split; auto; lia.
Qed.

Lemma kept_seg : forall l2 l1 l3 t x, Forall op_ok (l1 ++ l2 ++ l3) -> no_overflow (l1 ++ l2 ++ l3) ->
  Forall (fun o => ~ restarts t o) l2 -> holds_at_least t x (final [] l1) -> holds_at_least t x (final [] (l1 ++ l2)).
Proof.
  induction l2 as [|o l2 IH]; intros l1 l3 t x F NO NR HA; [rewrite List.app_nil_r; auto|]. inversion NR; subst.
  replace (l1 ++ o :: l2) with ((l1 ++ [o]) ++ l2) by (rewrite <- app_assoc; auto).
  replace (l1 ++ (o :: l2) ++ l3) with ((l1 ++ [o]) ++ l2 ++ l3) in F, NO by (rewrite <- app_assoc; auto).
  apply (IH _ l3); auto. rewrite final_app. cbn [final].
  assert (E : nth_error ((l1 ++ [o]) ++ l2 ++ l3) (length l1) = Some o).
  { rewrite <- app_assoc. rewrite nth_error_app2, Nat.sub_diag by lia. reflexivity. }
  destruct (step_room _ _ _ F NO E) as (OK & B & HE & HT & HH & HR).
  replace (firstn (length l1) ((l1 ++ [o]) ++ l2 ++ l3)) with l1 in * by (rewrite <- app_assoc, firstn_app, Nat.sub_diag, firstn_all, app_nil_r; auto).
  eapply step_lower; eauto. lia.
Qed.

Lemma fold_max_in es e : In e es -> ev_explicit e <= fold_right (fun e a => Z.max (ev_explicit e) a) 0 es.
Proof. induction es; cbn; intros []; [subst; lia|]. specialize (IHes H). lia. Qed.

Lemma fold_max_app a b : fold_right (fun e a => Z.max (ev_explicit e) a) 0 a <= fold_right (fun e a => Z.max (ev_explicit e) a) 0 (a ++ b).
Proof. induction a; cbn; [induction b; cbn; lia|lia]. Qed.

(* the facts of the INSERT at position i *)
Lemma ins_at es i t ns rows rows' last : Forall event_ok es -> ids_fit es ->
  nth_error es i = Some (EvIns t ns rows) -> outcome es i (InsOk rows' last) ->
  (exists old, (lookup t (hfinal [] (firstn i es)) = Some old) /\
   ins_facts t ns (hfinal [] (firstn i es)) (hfinal [] (firstn (S i) es)) rows rows' last old) \/
  (requests [EvIns t ns rows] = [] /\ rows' = rows /\ forall k v, nth_error rows k = Some v -> ~ wants_id v).
Proof.
  intros F FIT E O. unfold outcome in O. rewrite (history_at _ _ _ _ E) in O. injection O as O.
  rewrite (firstn_S _ _ _ E). cbn [do_event snd] in O.
  assert (HF : forall m l, hfinal m (l ++ [EvIns t ns rows]) = fst (do_event (hfinal m l) (EvIns t ns rows))).
  { intros m l. rewrite do_event_req, !hfinal_req, requests_app, final_app. reflexivity. }
  rewrite HF. cbn [do_event]. set (m := hfinal [] (firstn i es)) in *.
  destruct (update_auto_inc t ns None m rows) as [m' r] eqn:U. cbn in O. injection O as ->. cbn [fst].
  assert (OKE : event_ok (EvIns t ns rows)) by (rewrite Forall_forall in F; apply F; eapply nth_error_In; eauto). cbn in OKE.
  destruct (lookup t m) as [old|] eqn:L.
  - left. exists old. split; auto. destruct (req_total es F FIT) as (RO & RH & RT). unfold ids_fit in FIT.
    assert (SPL : es = firstn i es ++ EvIns t ns rows :: skipn (S i) es).
    { rewrite <- (firstn_skipn i es) at 1. f_equal. apply nth_skipn. auto. }
    set (es1 := firstn i es) in *. set (es2 := skipn (S i) es) in *.
    assert (F1 : Forall event_ok es1 /\ Forall event_ok es2) by (rewrite SPL in F; apply Forall_app in F; destruct F as [A1 A2]; inversion A2; auto).
    destruct F1 as [F1 F2].
    assert (FM : forall l, 0 <= fold_right (fun e a => Z.max (ev_explicit e) a) 0 l) by (induction l; cbn; lia).
    assert (FC : forall l, Forall event_ok l -> 0 <= fold_right (fun e a => ev_counted e + a) 0 l).
    { clear. induction 1 as [|e l OK F IH]; cbn; [lia|]. assert (0 <= ev_counted e) by (destruct e; cbn; [apply counted_nonneg; auto|lia]). lia. }
    assert (FA : forall a b, fold_right (fun e a => ev_counted e + a) 0 (a ++ b) = fold_right (fun e a => ev_counted e + a) 0 a + fold_right (fun e a => ev_counted e + a) 0 b).
    { clear. induction a; intros; cbn; [lia|]. rewrite IHa. lia. }
    assert (HX : ev_explicit (EvIns t ns rows) <= fold_right (fun e a => Z.max (ev_explicit e) a) 0 es) by (apply fold_max_in; eapply nth_error_In; eauto).
    rewrite SPL in FIT at 2. rewrite FA in FIT. cbn [fold_right] in FIT. pose proof (FC es2 F2) as FC2. cbn [ev_counted ev_explicit] in *.
    set (H := fold_right (fun e a => Z.max (ev_explicit e) a) 0 es) in *.
    assert (HM : fold_right (fun e a => Z.max (ev_explicit e) a) 0 es1 <= H) by (unfold H; rewrite SPL; apply fold_max_app).
    assert (FIT1 : ids_fit es1) by (unfold ids_fit; lia).
    destruct (req_total es1 F1 FIT1) as (RO1 & RH1 & RT1).
    assert (BM : bounded (H + 0 + total (requests es1)) m).
    { unfold m. rewrite hfinal_req. pose proof (FM es). apply run_bounded; auto; try lia; [|apply bounded_nil].
      intros o Ho. apply highest_in in Ho. lia. }
    pose proof (BM _ _ L). pose proof (FC es1 F1). eapply ins_ok; eauto; try lia.
  - right. unfold update_auto_inc in U. unfold ins_request, requests. cbn [flat_map]. unfold ins_request. rewrite scan_eq in * by auto.
    destruct ((0 + nneed rows =? 0) && ((if ns then 0 else nmax rows 0) =? 0)) eqn:Q.
    + injection U as E1 E2 E3; subst rows'. split; auto. split; auto. intros k v N W. apply andb_true_iff in Q. destruct Q as [Q _]. apply Z.eqb_eq in Q.
      apply needs_id_spec in W; [|rewrite Forall_forall in OKE; apply OKE; eapply nth_error_In; eauto].
      pose proof (nneed_zero rows ltac:(lia) v (nth_error_In _ _ N)). congruence.
    + unfold gen_id in U. rewrite L in U. discriminate.
Qed.

Theorem insert_rows : forall es i t ns rows rows' last,
  Forall event_ok es -> ids_fit es ->
  nth_error es i = Some (EvIns t ns rows) -> outcome es i (InsOk rows' last) ->
  length rows' = length rows /\
  (forall k v, nth_error rows k = Some v -> ~ wants_id v -> nth_error rows' k = Some v) /\
  (forall k v, nth_error rows k = Some v -> wants_id v -> exists x, nth_error rows' k = Some (Some x) /\ 0 < x) /\
  (forall k1 k2 x1 x2, (k1 < k2)%nat -> generated rows rows' k1 x1 -> generated rows rows' k2 x2 -> x1 < x2) /\
  (ns = false -> forall k x e, generated rows rows' k x -> explicit rows e -> e < x) /\
  (forall k v, nth_error rows k = Some v -> wants_id v ->
     exists k0 x, last = Some x /\ generated rows rows' k0 x /\ (k0 <= k)%nat).
Proof.
  intros es i t ns rows rows' last F FIT E O. destruct (ins_at es i t ns rows rows' last F FIT E O) as [(old & L & IF)|(R & -> & NW)].
  - destruct IF. repeat split; auto. intros k v N W. destruct (if_give0 k v N W) as (x & X). exists x. split; auto.
    apply (if_pos0 k). exists v. auto.
  - assert (NG : forall k x, ~ generated rows rows k x) by (intros k x (v & N & W & _); apply (NW k v); auto).
    repeat split; auto; try (intros; exfalso; eapply NW; eauto; fail).
    + intros k1 k2 x1 x2 _ G. destruct (NG _ _ G).
    + intros _ k x e G. destruct (NG _ _ G).
Qed.

Theorem insert_history : forall es i j t ns1 rows1 rows1' last1 ns2 rows2 rows2' last2,
  Forall event_ok es -> ids_fit es -> (i < j)%nat ->
  nth_error es i = Some (EvIns t ns1 rows1) -> outcome es i (InsOk rows1' last1) ->
  nth_error es j = Some (EvIns t ns2 rows2) -> outcome es j (InsOk rows2' last2) ->
  (forall k e, (i < k < j)%nat -> nth_error es k = Some e -> ~ restarts_ev t e) ->
  forall k2 x2, generated rows2 rows2' k2 x2 ->
  (forall k1 x1, generated rows1 rows1' k1 x1 -> x1 < x2) /\
  (ns1 = false -> forall e, explicit rows1 e -> e < x2).
Proof.
  intros es i j t ns1 rows1 rows1' last1 ns2 rows2 rows2' last2 F FIT L E1 O1 E2 O2 BT k2 x2 G2.
  destruct (ins_at es j _ _ _ _ _ F FIT E2 O2) as [(old2 & L2 & IF2)|(_ & _ & NW)].
  2:{ destruct G2 as (v & N & W & _). destruct (NW _ _ N W). }
  destruct (if_pos _ _ _ _ _ _ _ _ IF2 _ _ G2) as [P2 P0].
  assert (KEEP : forall x, holds_at_least t x (hfinal [] (firstn (S i) es)) -> x <= x2).
  { intros x HA. destruct (req_total es F FIT) as (RO & RH & RT).
    assert (NO : no_overflow (requests es)) by (unfold no_overflow; unfold ids_fit in FIT; lia).
    assert (LJ : (j < length es)%nat) by (apply nth_error_Some; congruence).
    assert (SP : firstn j es = firstn (S i) es ++ firstn (j - S i) (skipn (S i) es)).
    { rewrite firstn_skipn_comm. replace (S i + (j - S i))%nat with j by lia.
      transitivity (firstn (S i) (firstn j es) ++ skipn (S i) (firstn j es)); [symmetry; apply firstn_skipn|]. rewrite firstn_firstn. do 2 f_equal; lia. }
    set (mid := firstn (j - S i) (skipn (S i) es)) in *.
    assert (SPL : es = firstn (S i) es ++ mid ++ skipn j es).
    { rewrite app_assoc, <- SP. symmetry. apply firstn_skipn. }
    assert (HK : holds_at_least t x (hfinal [] (firstn j es))).
    { rewrite hfinal_req in HA |- *. rewrite SP, requests_app.
      apply (kept_seg _ _ (requests (skipn j es))); auto.
      - rewrite <- !requests_app, <- SPL. auto.
      - rewrite <- !requests_app, <- SPL. auto.
      - apply Forall_forall. intros o Ho. unfold requests in Ho. apply in_flat_map in Ho. destruct Ho as (e & He & Ho).
        assert (exists k, (i < k < j)%nat /\ nth_error es k = Some e) as (k & Hk & Nk).
        { apply In_nth_error in He. destruct He as (n & He). assert (n < length mid)%nat by (apply nth_error_Some; congruence).
          exists (S i + n)%nat. assert (length mid <= j - S i)%nat by (unfold mid; apply firstn_le_length).
          assert (length (firstn (S i) es) = S i) by (apply firstn_length_le; lia).
          split; [lia|]. rewrite SPL. rewrite nth_error_app2 by lia. rewrite H1. replace (S i + n - S i)%nat with n by lia.
          rewrite nth_error_app1 by auto. auto. }
        specialize (BT k e Hk Nk). destruct e as [o'|t' ns rows]; cbn in BT, Ho.
        + destruct Ho as [->|[]]. auto.
        + destruct (ins_request t' ns rows) as [o'|] eqn:R; [|destruct Ho]. destruct Ho as [->|[]]. unfold ins_request in R.
          destruct (scan rows 0 0). destruct (_ && _); [discriminate|]. injection R as <-. auto. }
    destruct HK as (v & Ev & Hv). rewrite L2 in Ev. injection Ev as <-. lia. }
  destruct (ins_at es i _ _ _ _ _ F FIT E1 O1) as [(old1 & L1 & IF1)|(R1 & -> & NW)].
  - destruct (if_next _ _ _ _ _ _ _ _ IF1) as [N1 N2]. split.
    + intros k1 x1 G1. specialize (KEEP (x1 + 1) (N1 _ _ G1)). lia.
    + intros NS e Ex. destruct (Z_le_gt_dec e 0); [lia|]. specialize (KEEP (e + 1) (N2 NS e Ex ltac:(lia))). lia.
  - split; [intros k1 x1 (v & N & W & _); destruct (NW _ _ N W)|]. intros -> e Ex.
    unfold requests in R1. cbn in R1. unfold ins_request in R1.
    assert (RR : Forall row_range rows1).
    { assert (event_ok (EvIns t false rows1)) by (rewrite Forall_forall in F; apply F; eapply nth_error_In; eauto). auto. }
    rewrite scan_eq in R1 by auto. pose proof (nmax_in rows1 e 0 RR Ex).
    destruct (_ && _) eqn:Q; [|discriminate]. apply andb_true_iff in Q. destruct Q as [_ Q]. apply Z.eqb_eq in Q. lia.
Qed.
