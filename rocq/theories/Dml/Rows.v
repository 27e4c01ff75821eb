(* One row of a statement: it does what Spec says and keeps the invariant *)
From Verif.Dml Require Import Model Spec Base Inv.
Local Open Scope Z_scope.

(* ---------------- SET ---------------- *)
Lemma fold_set_length (l : list assign) row vals r :
  length (fold_left (fun r a => fset r (a_field a) (a_expr a row vals)) l r) = length r.
Proof. revert r. induction l as [|a l IH]; intros r; cbn [fold_left]; auto. rewrite IH, fset_length. reflexivity. Qed.
Lemma apply_length s row vals r : length (apply_updates s row vals r) = length r.
Proof. apply fold_set_length. Qed.
Lemma fold_set_get (l : list assign) row vals r f :
  (~ In f (map a_field l) /\ fget (fold_left (fun r a => fset r (a_field a) (a_expr a row vals)) l r) f = fget r f) \/
  ((f < length r)%nat /\ exists a, In a l /\ a_field a = f /\
     forall r', length r' = length r -> fget (fold_left (fun r a => fset r (a_field a) (a_expr a row vals)) l r') f = a_expr a row vals) \/
  (length r <= f)%nat.
Proof.
  revert r. induction l as [|a l IH]; intros r; cbn [fold_left].
  - left. split; [intros []|reflexivity].
  - destruct (IH (fset r (a_field a) (a_expr a row vals))) as [[N E]|[[L X]|L]].
    + destruct (Nat.eq_dec (a_field a) f) as [<-|Nf].
      * destruct (Nat.lt_ge_cases (a_field a) (length r)) as [L|L]; [|right; right; exact L]. right. left.
        split; [exact L|]. exists a. split; [left; reflexivity|]. split; [reflexivity|]. intros r' L'.
        destruct (IH (fset r' (a_field a) (a_expr a row vals))) as [[_ E']|[[_ (b & Hb & Eb & _)]|L2]].
        -- rewrite E'. apply fget_fset_eq. lia.
        -- exfalso. apply N. rewrite <- Eb. apply in_map. exact Hb.
        -- rewrite fset_length in L2. lia.
      * left. split; [intros [X|X]; [exact (Nf X)|exact (N X)]|]. rewrite E. apply fget_fset_ne. congruence.
    + rewrite fset_length in L. right. left. split; [exact L|]. destruct X as (b & Hb & Eb & X). exists b. split; [right; exact Hb|].
      split; [exact Eb|]. intros r' L'. apply X. rewrite !fset_length. exact L'.
    + rewrite fset_length in L. right. right. exact L.
Qed.
Lemma apply_out s row vals r f : ~ In f (upd_fields s) -> fget (apply_updates s row vals r) f = fget r f.
Proof.
  intros N. destruct (fold_set_get (s_updates s) row vals r f) as [[_ E]|[[L (a & Ha & Ea & _)]|L]].
  - exact E.
  - exfalso. apply N. rewrite <- Ea. apply in_map. exact Ha.
  - rewrite !fget_out; auto. unfold apply_updates. rewrite fold_set_length. exact L.
Qed.
Lemma apply_same s row vals r r' f : length r = length r' ->
  (In f (upd_fields s) \/ fget r f = fget r' f) -> fget (apply_updates s row vals r) f = fget (apply_updates s row vals r') f.
Proof.
  intros L X. destruct (fold_set_get (s_updates s) row vals r f) as [[N E]|[[Lf (a & Ha & Ea & E)]|Lf]].
  - rewrite !apply_out by exact N. destruct X as [X|X]; [contradiction|exact X].
  - unfold apply_updates. rewrite (E r eq_refl), (E r' (eq_sym L)). reflexivity.
  - rewrite !fget_out; auto; rewrite apply_length; [rewrite <- L|]; exact Lf.
Qed.
Lemma apply_null s tb row vals r f : wf_stmt tb s -> (f < length r)%nat -> fget (apply_updates s row vals r) f = None ->
  fget r f = None \/ (tb_default tb f = None /\ ~ In f (tb_pk tb)).
Proof.
  intros WS Lr N. destruct (fold_set_get (s_updates s) row vals r f) as [[_ E]|[[Lf (a & Ha & Ea & E)]|Lf]].
  - left. rewrite <- E. exact N.
  - right. subst f. apply (proj2 (WS a Ha) row vals). rewrite <- (E r eq_refl). exact N.
  - lia.
Qed.
Lemma set_row_model s o vals : set_row s o vals = apply_updates s (slot_row s o) vals o.
Proof.
  unfold set_row, apply_updates. change (seen s o) with (slot_row s o). generalize (slot_row s o) as w. intros w. generalize (s_updates s) as us. clear s.
  induction us as [|a us IH] using rev_ind.
  - cbn [last_set rev find fold_left]. apply (nth_ext _ _ None None); [rewrite map_length, seq_length; reflexivity|].
    intros n L. rewrite map_length, seq_length in L. rewrite (nth_indep _ None (nth (length o) o None)) by (rewrite map_length, seq_length; exact L).
    etransitivity; [apply (map_nth (fun f => nth f o None) (seq 0 (length o)) (length o) n)|]. rewrite seq_nth by exact L. reflexivity.
  - rewrite fold_left_app. cbn [fold_left]. rewrite <- IH. unfold last_set. rewrite rev_app_distr. cbn [rev app find].
    set (g := fun f => match find (fun a0 => Nat.eqb (a_field a0) f) (rev us) with Some a0 => a_expr a0 w vals | None => nth f o None end).
    assert (G : forall n k x, fset (map g (seq k n)) x (a_expr a w vals) = map (fun f => if Nat.eqb (k + x) f then a_expr a w vals else g f) (seq k n)).
    { induction n as [|n IHn]; intros k x; [destruct x; reflexivity|]. cbn [seq map]. destruct x as [|x]; cbn [fset].
      - rewrite Nat.add_0_r, Nat.eqb_refl. f_equal. apply map_ext_in. intros f Hf. apply in_seq in Hf.
        replace (Nat.eqb k f) with false by (symmetry; apply Nat.eqb_neq; lia). reflexivity.
      - rewrite IHn. replace (Nat.eqb (k + S x) k) with false by (symmetry; apply Nat.eqb_neq; lia). f_equal.
        apply map_ext. intros f. replace (S k + x)%nat with (k + S x)%nat by lia. reflexivity. }
    rewrite G. apply map_ext. intros f. cbn [Nat.add]. destruct (Nat.eqb (a_field a) f); reflexivity.
Qed.
Lemma slot_row_eq s r r' : length r = length r' ->
  (forall f, In f (s_slots s) -> (f < length r)%nat -> fget r f = fget r' f) -> slot_row s r = slot_row s r'.
Proof.
  intros L E. unfold slot_row. rewrite <- L. apply map_ext_in. intros f Hf. apply in_seq in Hf.
  destruct (memb f (s_slots s)) eqn:M; [|reflexivity]. apply E; [apply memb_In; exact M|lia].
Qed.

(* ---------------- which columns are read ---------------- *)
Lemma field_ids_nonpk tb s f : In f (field_ids tb s) -> In f (nonpk tb).
Proof.
  unfold field_ids, index_fields, cond_fields.
  destruct (s_updates s); [|destruct (negb _ && negb _ && _); [|auto]];
    intros X; apply in_app_or in X; destruct X as [X|X]; try (apply filter_In in X; tauto);
    (destruct (upd_or_del s); [apply filter_In in X; tauto|destruct X]).
Qed.
Definition sees (tb : table) (F : list nat) (r o : rec) : Prop := forall f, In f (tb_pk tb) \/ In f F -> fget r f = fget o f.
Lemma agree_sees tb ixs F r o : wf_table tb -> incl ixs (tb_indexes tb) -> incl (index_fields tb ixs) F -> sees tb F r o ->
  agree ixs r o.
Proof.
  intros (_ & _ & WI & _) Incl IF Se ix Hix. destruct (WI ix (Incl _ Hix)) as (Ff & Rr & _). split; apply proj_ext; intros f Hf.
  - destruct (in_dec Nat.eq_dec f (tb_pk tb)) as [X|X]; [apply Se; left; exact X|]. apply Se. right. apply IF.
    unfold index_fields. apply filter_In. split; [apply In_nonpk; split; [rewrite Forall_forall in Ff; exact (Ff f Hf)|exact X]|].
    apply existsb_exists. exists ix. split; [exact Hix|]. apply memb_In. exact Hf.
  - apply Se. left. exact (Rr f Hf).
Qed.
Lemma affected_incl tb s : incl (affected tb s) (tb_indexes tb).
Proof.
  intros ix. unfold affected. destruct (s_updates s); [auto|]. destruct (affect_pk tb s || tb_ttl tb); [auto|].
  rewrite filter_In. tauto.
Qed.
Lemma index_fields_incl tb s : incl (index_fields tb (affected tb s)) (field_ids tb s).
Proof.
  intros f Hf. unfold field_ids. destruct (s_updates s) eqn:E.
  - apply in_or_app. left. unfold affected in Hf. rewrite E in Hf. exact Hf.
  - destruct (negb _ && negb _ && _); [apply in_or_app; left; exact Hf|]. unfold index_fields in Hf. apply filter_In in Hf. tauto.
Qed.

(* ---------------- what is stored is what is read ---------------- *)
Lemma read_enc tb r o f : (fget o f = None -> tb_default tb f = None) -> fget r f = enc_col tb f (fget o f) -> read_cell tb r f = fget o f.
Proof.
  intros N E. unfold read_cell. rewrite E. unfold enc_col. destruct (cell_dec (fget o f) (tb_default tb f)) as [X|X].
  - symmetry. exact X.
  - destruct (fget o f) eqn:Y; [reflexivity|]. symmetry. symmetry. exact (N eq_refl).
Qed.
Lemma full_stored tb q old r upd o : wf_table tb -> length o = tb_cols tb -> pk_of tb o = q ->
  (forall f, In f (nonpk tb) -> fget o f = None -> tb_default tb f = None) ->
  (tb_cstore tb = false -> r = o) ->
  (tb_cstore tb = true -> forall f, In f (nonpk tb) ->
     match upd with
     | None => fget r f = fget o f /\ old = None
     | Some fs => if memb f fs then fget r f = fget o f
                  else exists old', old = Some old' /\ read_cell tb old' f = fget o f
     end) ->
  full_row tb q (stored_row tb old r upd) = o.
Proof.
  intros WT L Pk Nl RS CS. apply rec_ext; [rewrite full_row_length; auto|]. rewrite full_row_length. intros f Hf.
  destruct (in_dec Nat.eq_dec f (tb_pk tb)) as [X|X].
  - assert (E : pk_of tb (full_row tb q (stored_row tb old r upd)) = pk_of tb o).
    { rewrite pk_full_row; [auto|exact WT|]. rewrite <- Pk. apply pk_of_length. }
    exact (proj_eq_get _ _ _ _ E X).
  - assert (Np : In f (nonpk tb)) by (apply In_nonpk; auto). rewrite fget_full_row by exact Np.
    unfold stored_row. destruct (tb_cstore tb) eqn:C.
    + specialize (CS eq_refl f Np).
      assert (G : forall g, fget (map g (seq 0 (tb_cols tb))) f = g f).
      { intros g. unfold fget. rewrite (nth_indep _ None (g O)) by (rewrite map_length, seq_length; exact Hf).
        rewrite map_nth. rewrite seq_nth by exact Hf. reflexivity. }
      destruct upd as [fs|].
      * destruct (memb f fs) eqn:M.
        { apply read_enc; [exact (Nl f Np)|]. rewrite G, M, CS. reflexivity. }
        { destruct CS as (old' & -> & E). rewrite <- E. unfold read_cell. rewrite G, M. reflexivity. }
      * destruct CS as [E ->]. apply read_enc; [exact (Nl f Np)|]. rewrite G, E, fget_blank.
        destruct (enc_col tb f (fget o f)); reflexivity.
    + rewrite (RS eq_refl). unfold read_cell. destruct (fget o f) eqn:E; [reflexivity|]. exact (Nl f Np E).
Qed.

Section Row.
Variable ev : env.
Notation tb := (e_tb ev).
Variable s : stmt.
Variable P : index -> list cell -> Prop.
Hypothesis WT : wf_table tb.
Hypothesis WS : wf_stmt tb s.
Hypothesis Wt : wf_time ev s.
Hypothesis Pact : forall ix q, In ix (tb_indexes tb) -> P ix q -> writable_state (ix_state ix) = true.
Hypothesis Pu : forall ix q q', ix_uniq ix = true -> P ix q -> P ix q'.
Hypothesis Act : forall ix, In ix (tb_indexes tb) -> writable s ix = true -> removable ix = true.
Definition Pfull : Prop := forall ix q, In ix (tb_indexes tb) -> ix_uniq ix = true -> writable s ix = true -> P ix q.
Notation all := (tb_indexes tb).

Definition ttl_ok (c : ctx) : Prop := tb_ttl tb = true -> 0 < c_ttl c /\ e_now ev <= c_ttl c.

Lemma wts_live c : ttl_ok c -> expired ev (wts tb c) = false.
Proof.
  unfold ttl_ok, wts, expired. destruct (tb_ttl tb); [|reflexivity]. intros X. destruct (X eq_refl) as [_ Y]. apply Z.ltb_ge. exact Y.
Qed.
Lemma wts_zero c : tb_ttl tb = false -> wts tb c = 0.
Proof. unfold wts. intros ->. reflexivity. Qed.
Lemma Pwr ix q : In ix all -> P ix q -> writable s ix = true.
Proof. intros Hix HP. unfold writable. rewrite (Pact ix q Hix HP). apply orb_true_r. Qed.

(* ---------------- reading a row ---------------- *)
Lemma primary_cases st p t : pk_of tb t = p -> length t = tb_cols tb -> keys_ok ev st ->
  match get_primary ev st p t (field_ids tb s) with
  | NotInRegion => e_fits ev p = false
  | NotFound => e_fits ev p = true /\ rows ev st p = None
  | Expired => e_fits ev p = true /\ rows ev st p = None
  | Found e r => e_fits ev p = true /\ exists o, rows ev st p = Some (e, o) /\ sees tb (field_ids tb s) r o /\
                 length r = tb_cols tb /\ pk_of tb r = p
  end.
Proof.
  intros Pk L K. unfold get_primary, rows. destruct (e_fits ev p); [|reflexivity]. cbn [negb].
  destruct (prow st p) as [[e stored]|]; [|auto]. destruct (expired ev e); [auto|].
  assert (Lp : length p = length (tb_pk tb)) by (rewrite <- Pk; apply pk_of_length).
  assert (PR : pk_of tb (read_row tb (field_ids tb s) stored t) = p).
  { rewrite <- Pk. apply proj_ext. intros f Hf. apply fget_read_row_out. intros X. apply field_ids_nonpk in X.
    apply In_nonpk in X. tauto. }
  split; [reflexivity|]. exists (full_row tb p stored). split; [reflexivity|]. split; [|split; [rewrite read_row_length; exact L|exact PR]].
  intros f [Hf|Hf].
  - assert (E : pk_of tb (read_row tb (field_ids tb s) stored t) = pk_of tb (full_row tb p stored)).
    { rewrite PR. symmetry. apply pk_full_row; assumption. }
    exact (proj_eq_get _ _ _ _ E Hf).
  - pose proof (field_ids_nonpk _ _ _ Hf) as Np. rewrite fget_full_row by exact Np. apply fget_read_row_in; [|exact Hf].
    rewrite L. apply In_nonpk in Np. tauto.
Qed.
Lemma rows_prow st p : tb_ttl tb = false -> e_fits ev p = true -> rows ev st p = None -> prow st p = None.
Proof.
  intros T Fi. unfold rows. rewrite Fi. destruct (prow st p) as [[e stored]|]; [|reflexivity]. unfold expired. rewrite T. discriminate.
Qed.

(* ---------------- removing a row ---------------- *)
Lemma inv_delete D st q e o r : Inv ev P D st -> rows ev st q = Some (e, o) -> agree all r o ->
  (forall ix, In ix all -> ~ D ix q) ->
  Inv ev P D (remove_primary (remove_indexes all st r) q) /\
  eqc (rows ev (remove_primary (remove_indexes all st r) q)) (cdel (rows ev st) q).
Proof.
  intros INV R A ND.
  assert (RR : eqc (rows ev (remove_primary (remove_indexes all st r) q)) (cdel (rows ev st) q)).
  { intros p. rewrite rows_remove. unfold cdel. destruct (cells_dec q p); [reflexivity|].
    apply rows_same, remove_indexes_rows. }
  split; [|exact RR].
  assert (I1 : Inv ev P (fun ix q' => D ix q' \/ (In ix all /\ q' = q)) (remove_primary (remove_indexes all st r) q)).
  { apply inv_remove_primary.
    - eapply inv_detach; eauto. intros x Hx; exact Hx.
    - intros ix Hix _. right. auto. }
  eapply inv_weaken; [exact I1|intros; left; assumption|].
  intros ix q' [X|[_ ->]]; [left; exact X|right]. rewrite RR. unfold cdel. destruct (cells_dec q q); [reflexivity|contradiction].
Qed.

Lemma inv_absent st q ixs : Inv ev P nobody st -> rows ev st q = None ->
  Inv ev P (fun ix q' => In ix ixs /\ q' = q) st.
Proof.
  intros [K Sn C Dt] R. constructor; auto.
  - intros ix Hix q' e o [HP _] R'. apply (C ix Hix q' e o); [|exact R']. split; [exact HP|intros []].
  - intros ix Hix Rm q' cs rest e [_ ->] Hh Ex Fi E. destruct (Sn ix Hix Rm cs rest e Hh Ex Fi) as (o & R' & _). congruence.
Qed.

(* ---------------- the UNIQUE indexes ---------------- *)
Definition clear (st : store) (r : rec) (ixs : list index) : Prop :=
  forall ix, In ix ixs -> writable s ix = true -> ix_uniq ix = true -> unfound (get_secondary ev st ix r).

Lemma loop_plain al uk isu r ixs c aff : isu || s_ignore s || on_dup s || negb (s_replace s) = true ->
  match uniq_loop ev s al uk isu r ixs c aff with
  | Go c' aff' => c' = c /\ aff' = aff /\ clear (c_st c) r ixs
  | Stop res => exists before ix after e old, ixs = before ++ ix :: after /\ writable s ix = true /\ ix_uniq ix = true /\
      get_secondary ev (c_st c) ix r = Found e old /\ clear (c_st c) r before /\
      res = (if isu then None else if s_ignore s then Some (c, 0) else if on_dup s then uk c old else None)
  end.
Proof.
  intros M. induction ixs as [|ix ixs IH]; cbn [uniq_loop].
  - split; [reflexivity|]. split; [reflexivity|]. intros x [].
  - assert (SK : (writable s ix = true -> ix_uniq ix = true -> unfound (get_secondary ev (c_st c) ix r)) ->
       match uniq_loop ev s al uk isu r ixs c aff with
       | Go c' aff' => c' = c /\ aff' = aff /\ clear (c_st c) r (ix :: ixs)
       | Stop res => exists before ix0 after e old, ix :: ixs = before ++ ix0 :: after /\ writable s ix0 = true /\ ix_uniq ix0 = true /\
           get_secondary ev (c_st c) ix0 r = Found e old /\ clear (c_st c) r before /\
           res = (if isu then None else if s_ignore s then Some (c, 0) else if on_dup s then uk c old else None)
       end).
    { intros U. destruct (uniq_loop ev s al uk isu r ixs c aff) as [res|c' aff'].
      - destruct IH as (b & i & a & e & old & E1 & E2 & E3 & E4 & E5 & E6). exists (ix :: b), i, a, e, old.
        rewrite E1. split; [reflexivity|]. split; [exact E2|]. split; [exact E3|]. split; [exact E4|]. split; [|exact E6].
        intros x [<-|Hx]; [exact U|exact (E5 x Hx)].
      - destruct IH as (E1 & E2 & E3). split; [exact E1|]. split; [exact E2|]. intros x [<-|Hx]; [exact U|exact (E3 x Hx)]. }
    destruct (writable s ix && ix_uniq ix) eqn:W.
    + apply andb_true_iff in W. destruct W as [W U].
      destruct (get_secondary ev (c_st c) ix r) as [| | |e old] eqn:G; try (apply SK; intros _ _; exact Logic.I).
      assert (X : forall res, res = (if isu then None else if s_ignore s then Some (c, 0) else if on_dup s then uk c old else None) ->
        exists before ix0 after e0 old0, ix :: ixs = before ++ ix0 :: after /\ writable s ix0 = true /\ ix_uniq ix0 = true /\
           get_secondary ev (c_st c) ix0 r = Found e0 old0 /\ clear (c_st c) r before /\
           res = (if isu then None else if s_ignore s then Some (c, 0) else if on_dup s then uk c old0 else None)).
      { intros res E. exists [], ix, ixs, e, old. split; [reflexivity|]. split; [exact W|]. split; [exact U|]. split; [exact G|].
        split; [intros x []|exact E]. }
      destruct isu; [apply X; reflexivity|]. destruct (s_ignore s); [apply X; reflexivity|].
      destruct (on_dup s); [apply X; reflexivity|]. cbn in M. destruct (s_replace s); [discriminate|]. apply X. reflexivity.
    + apply SK. intros W1 U1. rewrite W1, U1 in W. discriminate.
Qed.

(* REPLACE: every row found is deleted *)
Lemma loop_replace uk r q : s_node s = InsertNode -> s_ignore s = false -> s_updates s = [] -> s_replace s = true ->
  length r = tb_cols tb ->
  forall ixs D c aff, incl ixs all ->
  Inv ev P D (c_st c) -> (forall ix q', D ix q' -> q' = q) -> (forall ix, In ix all -> D ix q) ->
  exists c' ds, uniq_loop ev s all uk false r ixs c aff = Go c' (aff + Z.of_nat (length ds)) /\
    c_ttl c' = c_ttl c /\ Inv ev P D (c_st c') /\ NoDup ds /\ ~ In q ds /\
    (forall p, In p ds -> exists e o ix, rows ev (c_st c) p = Some (e, o) /\ In ix ixs /\ ix_uniq ix = true /\ writable s ix = true /\
       proj r (ix_fields ix) = proj o (ix_fields ix)) /\
    eqc (rows ev (c_st c')) (fun p => if in_dec cells_dec p ds then None else rows ev (c_st c) p) /\
    (forall k v, pidx (c_st c') k = Some v -> pidx (c_st c) k = Some v) /\
    clear (c_st c') r ixs.
Proof.
  intros Nd Ig Up Rp L. 
  assert (Od : on_dup s = false) by (unfold on_dup; rewrite Nd, Up; reflexivity).
  induction ixs as [|ix ixs IH]; intros D c aff Incl INV HD HDq.
  - exists c, []. cbn [uniq_loop length Z.of_nat]. rewrite Z.add_0_r.
    split; [reflexivity|]. split; [reflexivity|]. split; [exact INV|]. split; [constructor|]. split; [intros []|]. split; [intros p []|].
    split; [intros p; reflexivity|]. split; [auto|]. intros x [].
  - assert (Incl' : incl ixs all) by (intros x Hx; apply Incl; right; exact Hx).
    assert (SK : (writable s ix = true -> ix_uniq ix = true -> unfound (get_secondary ev (c_st c) ix r)) ->
       exists c' ds, uniq_loop ev s all uk false r ixs c aff = Go c' (aff + Z.of_nat (length ds)) /\
         c_ttl c' = c_ttl c /\ Inv ev P D (c_st c') /\ NoDup ds /\ ~ In q ds /\
         (forall p, In p ds -> exists e o ix0, rows ev (c_st c) p = Some (e, o) /\ In ix0 (ix :: ixs) /\ ix_uniq ix0 = true /\ writable s ix0 = true /\
            proj r (ix_fields ix0) = proj o (ix_fields ix0)) /\
         eqc (rows ev (c_st c')) (fun p => if in_dec cells_dec p ds then None else rows ev (c_st c) p) /\
         (forall k v, pidx (c_st c') k = Some v -> pidx (c_st c) k = Some v) /\
         clear (c_st c') r (ix :: ixs)).
    { intros U. destruct (IH D c aff Incl' INV HD HDq) as (c' & ds & E1 & E2 & E3 & E4 & E5 & E6 & E7 & E8 & E9).
      exists c', ds. split; [exact E1|]. split; [exact E2|]. split; [exact E3|]. split; [exact E4|]. split; [exact E5|]. split.
      { intros p Hp. destruct (E6 p Hp) as (e & o & i & X1 & X2 & X3). exists e, o, i. split; [exact X1|]. split; [right; exact X2|exact X3]. }
      split; [exact E7|]. split; [exact E8|]. intros x [<-|Hx]; [|exact (E9 x Hx)].
      intros W1 U1. exact (unfound_mono ev _ _ _ _ E8 (U W1 U1)). }
    cbn [uniq_loop].
    destruct (writable s ix && ix_uniq ix) eqn:W; [|apply SK; intros W1 U1; rewrite W1, U1 in W; discriminate].
    apply andb_true_iff in W. destruct W as [W U].
    destruct (get_secondary ev (c_st c) ix r) as [| | |e old] eqn:G; try (apply SK; intros _ _; exact Logic.I).
    rewrite Ig, Od, Rp. clear SK.
    assert (Hix : In ix all) by (apply Incl; left; reflexivity).
    destruct (secondary_found ev WT P D (c_st c) ix r e old INV Hix (Act ix Hix W) U L G) as (q' & o & R & E & ND & Pk & Lo).
    assert (Nq : q' <> q) by (intros ->; apply ND, HDq, Hix).
    assert (K : keys_ok ev (c_st c)) by apply INV.
    destruct (K _ _ _ R) as (K1 & K2 & _).
    assert (DR : exists r', agree all r' o /\ delete_row ev s c all old = Some (remove_row ev c all q' r' true, 1)).
    { unfold delete_row.
      assert (En : encode_pk tb old = Some q') by (apply encode_pk_some; split; assumption). rewrite En.
      pose proof (primary_cases (c_st c) q' old Pk Lo K) as PC.
      destruct (get_primary ev (c_st c) q' old (field_ids tb s)) as [| | |e' r'].
      - destruct (rows_info ev _ _ _ _ R) as (X & _). congruence.
      - destruct PC as [_ X]. congruence.
      - destruct PC as [_ X]. congruence.
      - destruct PC as (_ & o' & R' & Se & _). rewrite R in R'. injection R' as <- <-. exists r'. split.
        + apply (agree_sees tb all (field_ids tb s) r' o WT); [intros x Hx; exact Hx| |exact Se].
          pose proof (index_fields_incl tb s) as X. unfold affected in X. rewrite Up in X. exact X.
        + unfold satisfy, upd_or_del. rewrite Nd, andb_false_r. reflexivity. }
    destruct DR as (r' & A & ->).
    set (c1 := remove_row ev c all q' r' true).
    assert (St1 : c_st c1 = remove_primary (remove_indexes all (c_st c) r') q') by (unfold c1; rewrite remove_row_st; reflexivity).
    assert (NDq : forall i, In i all -> ~ D i q') by (intros i _ X; apply Nq; exact (HD i q' X)).
    destruct (inv_delete D (c_st c) q' e o r' INV R A NDq) as [I1 R1]. rewrite <- St1 in I1, R1.
    assert (M1 : forall k v, pidx (c_st c1) k = Some v -> pidx (c_st c) k = Some v).
    { intros k v X. rewrite St1 in X. exact (proj1 (remove_indexes_some _ _ _ _ _ X)). }
    assert (G1 : pidx (c_st c1) (rec_key ix o) = None).
    { rewrite St1. change (pidx (remove_indexes all (c_st c) r') (rec_key ix o) = None).
      destruct (agree_key _ _ _ _ A Hix) as [<- _]. apply remove_indexes_gone; [exact Hix|exact (Act ix Hix W)]. }
    destruct (IH D c1 (aff + 1) Incl' I1 HD HDq) as (c' & ds & E1 & E2 & E3 & E4 & E5 & E6 & E7 & E8 & E9).
    assert (T1 : rows ev (c_st c1) q' = None) by (rewrite R1; unfold cdel; destruct (cells_dec q' q'); [reflexivity|contradiction]).
    exists c', (q' :: ds). split; [rewrite E1; f_equal; cbn [length]; lia|]. split; [rewrite E2; reflexivity|]. split; [exact E3|].
    split; [constructor; [|exact E4]; intros X; destruct (E6 _ X) as (? & ? & ? & Y & _); congruence|].
    split; [intros [X|X]; [exact (Nq X)|exact (E5 X)]|]. split.
    { intros p [<-|Hp].
      - exists e, o, ix. split; [exact R|]. split; [left; reflexivity|]. auto.
      - destruct (E6 p Hp) as (e2 & o2 & i & X1 & X2 & X3). exists e2, o2, i. split; [|split; [right; exact X2|exact X3]].
        rewrite R1 in X1. unfold cdel in X1. destruct (cells_dec q' p); [discriminate|exact X1]. }
    split.
    { intros p. rewrite E7, R1. unfold cdel. destruct (in_dec cells_dec p ds) as [X|X], (in_dec cells_dec p (q' :: ds)) as [Y|Y]; auto.
      - exfalso. apply Y. right. exact X.
      - destruct (cells_dec q' p) as [Z0|Z0]; [reflexivity|]. destruct Y as [Y|Y]; contradiction.
      - destruct (cells_dec q' p) as [Z0|Z0]; [|reflexivity]. exfalso. apply Y. left. exact Z0. }
    split; [intros k v X; apply M1, E8, X|].
    intros x [<-|Hx]; [|exact (E9 x Hx)]. intros _ _. unfold get_secondary.
    assert (Key : (ix_id ix, proj r (ix_fields ix), []) = rec_key ix o) by (unfold rec_key; rewrite U, E; reflexivity).
    rewrite Key. destruct (pidx (c_st c') (rec_key ix o)) as [v|] eqn:X; [|exact Logic.I]. apply E8 in X. congruence.
Qed.
End Row.
