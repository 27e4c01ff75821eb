(* Statements and the life of a region *)
From Verif.Dml Require Import Model Spec Base Inv Rows Update Insert.
Local Open Scope Z_scope.

Lemma writable_removable ix : writable_state (ix_state ix) = true -> removable ix = true.
Proof. unfold removable. destruct (ix_state ix); cbn; congruence. Qed.
Definition Pst : index -> list cell -> Prop := fun ix _ => writable_state (ix_state ix) = true.
Lemma consistent_inv ev st : consistent ev st <-> Inv ev Pst nobody st.
Proof.
  split.
  - intros [K X]. constructor.
    + exact K.
    + intros ix Hix Rm. exact (proj1 (X ix Hix) Rm).
    + intros ix Hix q e o [HP _] R. exact (proj2 (X ix Hix) HP q e o Logic.I R).
    + intros ix _ _ q cs rest e [].
  - intros [K Sn C _]. split; [exact K|]. intros ix Hix. split; [exact (Sn ix Hix)|]. intros W q e o _ R.
    apply (C ix Hix q e o); [|exact R]. split; [exact W|intros []].
Qed.

Lemma each_rows {A} ev (f : ctx -> A -> option (ctx * Z)) (step : content -> A -> outcome -> Prop) (I0 : ctx -> Prop) (Q : A -> Prop) l :
  (forall c a, I0 c -> Q a -> match f c a with
               | None => step (rows ev (c_st c)) a Fails
               | Some (c', k) => I0 c' /\ step (rows ev (c_st c)) a (Does (rows ev (c_st c')) k) end) ->
  forall c n, I0 c -> Forall Q l ->
  match each f c l n with
  | None => all_rows step (rows ev (c_st c)) l Fails
  | Some (c', m) => I0 c' /\ all_rows step (rows ev (c_st c)) l (Does (rows ev (c_st c')) (m - n))
  end.
Proof.
  intros St. induction l as [|a l IH]; intros c n Ic F; cbn [each].
  - split; [exact Ic|]. rewrite Z.sub_diag. constructor. intros p. reflexivity.
  - inversion F; subst. pose proof (St c a Ic H1) as S1. destruct (f c a) as [[c' k]|]; [|apply all_fail; exact S1].
    destruct S1 as [Ic' S1]. specialize (IH c' (n + k) Ic' H2). destruct (each f c' l (n + k)) as [[c2 m]|].
    + destruct IH as [I2 R2]. split; [exact I2|]. pose proof (all_cons step _ a l _ k _ S1 R2) as X. cbn in X.
      replace (k + (m - (n + k))) with (m - n) in X by lia. exact X.
    + exact (all_cons step _ a l _ k _ S1 IH).
Qed.

Section S.
Variable ev : env.
Notation tb := (e_tb ev).
Variable P : index -> list cell -> Prop.
Hypothesis WT : wf_table tb.
Hypothesis Pact : forall ix q, In ix (tb_indexes tb) -> P ix q -> writable_state (ix_state ix) = true.
Hypothesis Pu : forall ix q q', ix_uniq ix = true -> P ix q -> P ix q'.
Definition Pall : Prop := forall ix q, In ix (tb_indexes tb) -> ix_uniq ix = true -> writable_state (ix_state ix) = true -> P ix q.

Lemma act s : s_ddl s = false -> forall ix, In ix (tb_indexes tb) -> writable s ix = true -> removable ix = true.
Proof. intros D ix _ W. unfold writable in W. rewrite D in W. exact (writable_removable ix W). Qed.
Lemma pfull s : s_ddl s = false -> Pall -> Pfull ev s P.
Proof. intros D A ix q Hix U W. unfold writable in W. rewrite D in W. exact (A ix q Hix U W). Qed.
Lemma start_ok s st : wf_time ev s -> ttl_ok ev (start ev s st).
Proof. intros Wt T. unfold start. cbn [c_ttl]. rewrite T. destruct (Wt T). lia. Qed.

Lemma insert_stmt s st rs : wf_stmt tb s -> wf_time ev s -> wf_insert ev s -> Forall (wf_row tb) rs -> Inv ev P nobody st ->
  match run_insert ev s st rs with
  | None => Pall -> all_rows (insert_spec ev s (expiry ev s)) (rows ev st) rs Fails
  | Some (c, n) => Inv ev P nobody (c_st c) /\ (Pall -> all_rows (insert_spec ev s (expiry ev s)) (rows ev st) rs (Does (rows ev (c_st c)) n))
  end.
Proof.
  intros WS Wt (Nd & Dd & Kp & Od) F INV. unfold run_insert.
  pose proof (each_rows ev (insert_row ev s) (fun T r o => Pall -> insert_spec ev s (expiry ev s) T r o)
    (fun c => Inv ev P nobody (c_st c) /\ ttl_ok ev c /\ c_ttl c = c_ttl (start ev s st)) (wf_row tb) rs) as E.
  assert (MONO : forall T l o, all_rows (fun T r o => Pall -> insert_spec ev s (expiry ev s) T r o) T l o -> Pall -> all_rows (insert_spec ev s (expiry ev s)) T l o).
  { intros T l o X PA. induction X; econstructor; eauto. }
  assert (ST : forall c a, (Inv ev P nobody (c_st c) /\ ttl_ok ev c /\ c_ttl c = c_ttl (start ev s st)) -> wf_row tb a ->
     match insert_row ev s c a with
     | None => Pall -> insert_spec ev s (expiry ev s) (rows ev (c_st c)) a Fails
     | Some (c', k) => (Inv ev P nobody (c_st c') /\ ttl_ok ev c' /\ c_ttl c' = c_ttl (start ev s st)) /\
         (Pall -> insert_spec ev s (expiry ev s) (rows ev (c_st c)) a (Does (rows ev (c_st c')) k)) end).
  { intros c a (I1 & T1 & E1) Wa.
    assert (Ew : wts tb c = expiry ev s) by (unfold wts, expiry; rewrite E1; unfold start; cbn [c_ttl]; destruct (tb_ttl tb); reflexivity).
    pose proof (insert_row_correct ev s P WT WS Wt Pact Pu (act s Dd) Nd (fun X => proj1 (Od X)) (fun X => proj1 (proj2 (Od X))) (fun X => proj2 (proj2 (Od X))) c a I1 T1 Wa) as X.
    rewrite Ew in X. destruct (insert_row ev s c a) as [[c' k]|].
    - destruct X as (X1 & X2 & X3 & X4). split; [split; [exact X1|split; [exact X2|rewrite (X3 Kp); exact E1]]|].
      intros PA. exact (X4 (pfull s Dd PA)).
    - intros PA. exact (X (pfull s Dd PA)). }
  specialize (E ST (start ev s st) 0 (conj INV (conj (start_ok s st Wt) eq_refl)) F). cbn [start c_st] in E.
  destruct (each (insert_row ev s) (start ev s st) rs 0) as [[c n]|].
  - destruct E as [(E1 & _) E2]. split; [exact E1|]. rewrite Z.sub_0_r in E2. intros PA. exact (MONO _ _ _ E2 PA).
  - intros PA. exact (MONO _ _ _ E PA).
Qed.

Lemma key_rec_encode p : wf_key tb p -> encode_pk tb (key_rec tb p) = Some p.
Proof. intros [L N]. apply encode_pk_some. split; [apply pk_key_rec; assumption|exact N]. Qed.

Lemma update_stmt s st ps : wf_stmt tb s -> wf_time ev s -> wf_update ev s -> Forall (wf_key tb) ps -> Inv ev P nobody st ->
  match run_update ev s st ps with
  | None => Pall -> all_rows (update_spec ev s (expiry ev s)) (rows ev st) ps Fails
  | Some (c, n) => Inv ev P nobody (c_st c) /\ (Pall -> all_rows (update_spec ev s (expiry ev s)) (rows ev st) ps (Does (rows ev (c_st c)) n))
  end.
Proof.
  intros WS Wt (Nd & Dd & Ne & Ig & Rp & Rg) F INV. unfold run_update.
  set (f := fun c p => update_row ev s [] c (key_rec tb p)).
  set (I0 := fun c => Inv ev P nobody (c_st c) /\ ttl_ok ev c /\ (s_keep s = false -> c_ttl c = c_ttl (start ev s st))).
  pose proof (each_rows ev f (fun T r o => Pall -> update_spec ev s (expiry ev s) T r o) I0 (wf_key tb) ps) as E.
  assert (MONO : forall T l o, all_rows (fun T r o => Pall -> update_spec ev s (expiry ev s) T r o) T l o -> Pall -> all_rows (update_spec ev s (expiry ev s)) T l o).
  { intros T l o X PA. induction X; econstructor; eauto. }
  assert (RC : reads_covered tb s) by (apply covered; left; unfold upd_or_del; rewrite Nd; reflexivity).
  assert (SAT : forall o, satisfy s o = wanted s o).
  { intros o. unfold satisfy, wanted, upd_or_del. rewrite Nd, andb_true_r. reflexivity. }
  assert (ST : forall c a, I0 c -> wf_key tb a ->
     match f c a with
     | None => Pall -> update_spec ev s (expiry ev s) (rows ev (c_st c)) a Fails
     | Some (c', k) => I0 c' /\ (Pall -> update_spec ev s (expiry ev s) (rows ev (c_st c)) a (Does (rows ev (c_st c')) k)) end).
  { intros c a (I1 & T1 & E1) Wa.
    assert (Ew : s_keep s = false -> wts tb c = expiry ev s).
    { intros Kp. unfold wts, expiry. rewrite (E1 Kp). unfold start; cbn [c_ttl]. destruct (tb_ttl tb); reflexivity. }
    pose proof (update_row_correct ev s P WT WS Wt Pact Pu (act s Dd) Ne Ig Rp RC Rg [] c (key_rec tb a) a I1 T1 (key_rec_encode a Wa) (fits_key_rec_length tb a)) as X.
    unfold f. destruct (update_row ev s [] c (key_rec tb a)) as [[c' k]|].
    - destruct X as (X1 & X2 & X3 & X4). split.
      { split; [exact X1|]. split; [exact X2|]. intros Kp. rewrite (X3 Kp). exact (E1 Kp). }
      intros PA. destruct X4 as [(Y & -> & ->)|(e & o & R & Y)].
      + apply upd_none; [exact Y|]. intros p. reflexivity.
      + destruct Y as [(Y & -> & ->)|(Y & -> & Z1 & Z2)].
        * apply upd_not_wanted with e o; [exact R|rewrite <- SAT; exact Y|]. intros p. reflexivity.
        * apply upd_row with e o; [exact R|rewrite <- SAT; exact Y|]. apply set_ok; [exact (Z2 (pfull s Dd PA))|].
          destruct (s_keep s); [exact Z1|]. rewrite (Ew eq_refl) in Z1. exact Z1.
    - intros PA. destruct X as (e & o & q' & e' & o' & R & Y & Nq & R' & Cl).
      apply upd_row with e o; [exact R|rewrite <- SAT; exact Y|]. apply set_dup with q' e' o'; assumption. }
  specialize (E ST (start ev s st) 0 (conj INV (conj (start_ok s st Wt) (fun _ => eq_refl))) F). cbn [start c_st] in E.
  destruct (each f (start ev s st) ps 0) as [[c n]|].
  - destruct E as [(E1 & _) E2]. split; [exact E1|]. rewrite Z.sub_0_r in E2. intros PA. exact (MONO _ _ _ E2 PA).
  - intros PA. exact (MONO _ _ _ E PA).
Qed.

Lemma delete_stmt s st ps : wf_delete s -> Forall (wf_key tb) ps -> Inv ev P nobody st ->
  exists c n, run_delete ev s st ps = Some (c, n) /\ Inv ev P nobody (c_st c) /\
    all_rows (delete_spec s) (rows ev st) ps (Does (rows ev (c_st c)) n).
Proof.
  intros (Nd & Up) F INV. unfold run_delete.
  set (f := fun c p => delete_row ev s c (tb_indexes tb) (key_rec tb p)).
  assert (RC : reads_covered tb s) by (apply covered; left; unfold upd_or_del; rewrite Nd; reflexivity).
  assert (SAT : forall o, satisfy s o = wanted s o).
  { intros o. unfold satisfy, wanted, upd_or_del. rewrite Nd, andb_true_r. reflexivity. }
  assert (ST : forall c a, Inv ev P nobody (c_st c) -> wf_key tb a ->
     exists c' k, f c a = Some (c', k) /\ Inv ev P nobody (c_st c') /\ delete_spec s (rows ev (c_st c)) a (Does (rows ev (c_st c')) k)).
  { intros c a I1 Wa.
    destruct (delete_row_correct ev s P WT Pu c (key_rec tb a) a Up RC I1 (key_rec_encode a Wa) (fits_key_rec_length tb a)) as (c' & k & E & X1 & _ & X2).
    exists c', k. split; [exact E|]. split; [exact X1|].
    destruct X2 as [(Y & -> & ->)|(e & o & R & [(Y & -> & ->)|(Y & -> & Z1)])].
    - apply del_none; [exact Y|]. intros p. reflexivity.
    - apply del_not_wanted with e o; [exact R|rewrite <- SAT; exact Y|]. intros p. reflexivity.
    - apply del_row with e o; [exact R|rewrite <- SAT; exact Y|exact Z1]. }
  assert (G : forall ps c n, Forall (wf_key tb) ps -> Inv ev P nobody (c_st c) ->
     exists c' m, each f c ps n = Some (c', m) /\ Inv ev P nobody (c_st c') /\ all_rows (delete_spec s) (rows ev (c_st c)) ps (Does (rows ev (c_st c')) (m - n))).
  { clear F INV ps. induction ps as [|p ps IH]; intros c n F I1; cbn [each].
    - exists c, n. split; [reflexivity|]. split; [exact I1|]. rewrite Z.sub_diag. constructor. intros q. reflexivity.
    - inversion F; subst. destruct (ST c p I1 H1) as (c1 & k & -> & I2 & S1).
      destruct (IH c1 (n + k) H2 I2) as (c2 & m & -> & I3 & S2). exists c2, m. split; [reflexivity|]. split; [exact I3|].
      pose proof (all_cons (delete_spec s) _ p ps _ k _ S1 S2) as X. cbn in X.
      replace (k + (m - (n + k))) with (m - n) in X by lia. exact X. }
  destruct (G ps (start ev s st) 0 F INV) as (c & n & E1 & E2 & E3). exists c, n. split; [exact E1|]. split; [exact E2|].
  rewrite Z.sub_0_r in E3. exact E3.
Qed.
End S.

(* ---------------- time passes, the region is cut ---------------- *)
Lemma inv_later ev ev' P st : e_tb ev' = e_tb ev -> e_now ev <= e_now ev' -> (forall p, e_fits ev' p = true -> e_fits ev p = true) ->
  Inv ev P nobody st -> Inv ev' P nobody st.
Proof.
  intros Et Nw Ft [K Sn C _].
  assert (Ex : forall e, expired ev' e = false -> expired ev e = false).
  { intros e. unfold expired. rewrite Et. destruct (tb_ttl (e_tb ev)); cbn [andb]; [|auto]. rewrite !Z.ltb_ge. lia. }
  assert (Rw : forall p e o, rows ev' st p = Some (e, o) -> rows ev st p = Some (e, o) /\ expired ev' e = false /\ e_fits ev' p = true).
  { intros p e o. unfold rows. destruct (e_fits ev' p) eqn:F; [|discriminate]. rewrite (Ft p F).
    destruct (prow st p) as [[e1 sr]|]; [|discriminate]. destruct (expired ev' e1) eqn:X; [discriminate|]. rewrite (Ex e1 X), Et.
    intros Y. injection Y as <- <-. auto. }
  assert (Rb : forall p e o, rows ev st p = Some (e, o) -> expired ev' e = false -> e_fits ev' p = true -> rows ev' st p = Some (e, o)).
  { intros p e o. unfold rows. intros R X F. rewrite F. rewrite (Ft p F) in R. destruct (prow st p) as [[e1 sr]|]; [|discriminate].
    destruct (expired ev e1); [discriminate|]. injection R as -> <-. rewrite X, Et. reflexivity. }
  constructor.
  - intros q e o R. rewrite Et. destruct (Rw _ _ _ R) as [R' _]. exact (K _ _ _ R').
  - intros ix Hix Rm cs rest e Hh X F. rewrite Et in *. destruct (Sn ix Hix Rm cs rest e Hh (Ex _ X) (Ft _ F)) as (o & R & E).
    exists o. split; [exact (Rb _ _ _ R X F)|exact E].
  - intros ix Hix q e o HP R. rewrite Et in Hix. destruct (Rw _ _ _ R) as [R' _]. exact (C ix Hix q e o HP R').
  - intros ix _ _ q cs rest e [].
Qed.

Lemma life_inv (P : index -> list cell -> Prop) ev st ev' st' : life ev st ev' st' -> wf_table (e_tb ev) ->
  (forall ix q, In ix (tb_indexes (e_tb ev)) -> P ix q -> writable_state (ix_state ix) = true) ->
  (forall ix q q', ix_uniq ix = true -> P ix q -> P ix q') ->
  Inv ev P nobody st -> e_tb ev' = e_tb ev /\ Inv ev' P nobody st'.
Proof.
  intros L. induction L; intros WT Pact Pu INV.
  - auto.
  - pose proof (insert_stmt ev P WT Pact Pu s st rs H H0 H1 H2 INV) as X. rewrite H3 in X. apply IHL; tauto.
  - pose proof (update_stmt ev P WT Pact Pu s st ps H H0 H1 H2 INV) as X. rewrite H3 in X. apply IHL; tauto.
  - destruct (delete_stmt ev P WT Pu s st ps H H0 INV) as (c1 & n1 & E & X & _). rewrite H1 in E. injection E as <- <-. apply IHL; tauto.
  - apply IHL; auto. apply (inv_later ev); auto.
  - apply IHL; auto. apply (inv_later ev); cbn; auto. lia.
Qed.
