(* An index is filled while statements run; batches; the number of rows *)
From Verif.Dml Require Import Model Spec DdlModel Base Inv Rows Update Insert Stmt.
Local Open Scope Z_scope.

(* statements and the rows given to the filling of an index, in any order *)
Inductive building (ix : index) : env -> store -> list (list cell) -> env -> store -> Prop :=
| bd_here ev st : building ix ev st [] ev st
| bd_life ev st ev1 st1 l ev' st' : life ev st ev1 st1 -> building ix ev1 st1 l ev' st' -> building ix ev st l ev' st'
| bd_row ev st q st1 l ev' st' : wf_key (e_tb ev) q -> backfill ev ix st q = Some st1 ->
    building ix ev st1 l ev' st' -> building ix ev st (q :: l) ev' st'.

Lemma read_fields ev st q F : wf_table (e_tb ev) -> wf_key (e_tb ev) q -> incl F (nonpk (e_tb ev)) ->
  match get_primary ev st q (key_rec (e_tb ev) q) F with
  | Found e r => exists o, rows ev st q = Some (e, o) /\ sees (e_tb ev) F r o /\ length r = tb_cols (e_tb ev)
  | _ => rows ev st q = None
  end.
Proof.
  intros WT [Lq _] IF. unfold get_primary, rows. destruct (e_fits ev q); [|reflexivity]. cbn [negb].
  destruct (prow st q) as [[e stored]|]; [|reflexivity]. destruct (expired ev e); [reflexivity|].
  exists (full_row (e_tb ev) q stored). split; [reflexivity|]. split; [|rewrite read_row_length; apply fits_key_rec_length].
  intros f [Hf|Hf].
  - rewrite fget_read_row_out by (intros X; apply IF in X; apply In_nonpk in X; tauto). unfold full_row.
    rewrite fget_read_row_out by (intros X; apply In_nonpk in X; tauto). reflexivity.
  - pose proof (IF f Hf) as Np. rewrite fget_full_row by exact Np. apply fget_read_row_in; [|exact Hf]. rewrite fits_key_rec_length.
    apply In_nonpk in Np. tauto.
Qed.
Lemma index_fields_nonpk tb ixs : incl (index_fields tb ixs) (nonpk tb).
Proof. intros f. unfold index_fields. rewrite filter_In. tauto. Qed.

Lemma inv_P ev (P P' : index -> list cell -> Prop) st : Inv ev P nobody st ->
  (forall ix q e o, In ix (tb_indexes (e_tb ev)) -> P' ix q -> rows ev st q = Some (e, o) ->
     P ix q \/ holds st ix (proj o (ix_fields ix)) (proj o (ix_rest ix)) e) -> Inv ev P' nobody st.
Proof.
  intros [K Sn C Dt] X. constructor; [exact K|exact Sn| |intros ix _ _ q cs rest e []].
  intros ix Hix q e o [HP _] R. destruct (X ix q e o Hix HP R) as [Y|Y]; [|exact Y].
  apply (C ix Hix q e o); [|exact R]. split; [exact Y|intros []].
Qed.

Section B.
Variable ev : env.
Notation tb := (e_tb ev).
Hypothesis WT : wf_table tb.
Variable ix : index.
Hypothesis Hix : In ix (tb_indexes tb).
Hypothesis Wr : writable_state (ix_state ix) = true.

(* writing the record of a row that is there *)
Lemma put_own P st q e o r w : Inv ev P nobody st -> rows ev st q = Some (e, o) -> agree [ix] r o -> w = e ->
  (ix_uniq ix = true -> unfound (get_secondary ev st ix r)) ->
  keys_ok ev (put_secondary st ix r w) /\
  (forall ix', In ix' (tb_indexes tb) -> removable ix' = true -> sound ev (put_secondary st ix r w) ix') /\
  (forall ix' q' e' o', In ix' (tb_indexes tb) -> P ix' q' \/ (ix' = ix /\ q' = q) -> rows ev st q' = Some (e', o') ->
     holds (put_secondary st ix r w) ix' (proj o' (ix_fields ix')) (proj o' (ix_rest ix')) e').
Proof.
  intros [K Sn C _] R A -> U. destruct (agree_key _ _ _ ix A (or_introl eq_refl)) as [Ak Av].
  assert (Pst : forall k, pidx (put_secondary st ix r e) k = if ikey_dec k (rec_key ix o) then Some (e, rec_val ix o) else pidx st k).
  { intros k. rewrite pidx_put, Ak, Av. reflexivity. }
  assert (Rs : forall p, rows ev (put_secondary st ix r e) p = rows ev st p) by (apply rows_same; reflexivity).
  split; [intros q' e' o' R'; rewrite Rs in R'; exact (K _ _ _ R')|]. split.
  - intros ix' Hix' Rm cs rest e' Hh Ex Fi. rewrite Rs. unfold holds in Hh. rewrite Pst in Hh.
    destruct (ikey_dec _ (rec_key ix o)) as [Ek|Ek]; [|exact (Sn ix' Hix' Rm cs rest e' Hh Ex Fi)].
    unfold rec_key in Ek. injection Ek as Ei E1 E2. assert (ix' = ix) by (apply (ix_inj ev WT); assumption). subst ix'.
    injection Hh as <- Ev. unfold rec_val in Ev.
    assert (rest = proj o (ix_rest ix)) by (destruct (ix_uniq ix); [symmetry; exact Ev|exact E2]). subst rest cs.
    exists o. rewrite (entry_live ev WT st ix q e o K Hix R). auto.
  - intros ix' q' e' o' Hix' HP R'. unfold holds. change (pidx (put_secondary st ix r e) (rec_key ix' o') = Some (e', rec_val ix' o')).
    rewrite Pst. destruct (ikey_dec (rec_key ix' o') (rec_key ix o)) as [Ek|Ek].
    + destruct (key_inj ev WT ix' ix o' o Hix' Hix Ek) as (-> & E1 & E2).
      assert (q' = q).
      { destruct (ix_uniq ix) eqn:Uq.
        - destruct HP as [HP|[_ HP]]; [|exact HP]. exfalso. pose proof (U eq_refl) as Un.
          assert (G : P ix q' /\ ~ nobody ix q') by (split; [exact HP|intros []]).
          pose proof (C ix Hix q' e' o' G R') as H1. unfold holds in H1. rewrite Uq in H1.
          destruct (rows_info ev _ _ _ _ R') as (Fq & Xq & _). destruct (A ix (or_introl eq_refl)) as [A1 _].
          refine (secondary_unfound ev st ix r Un (proj o' (ix_rest ix)) e' _ Xq _).
          + rewrite A1, <- E1. exact H1.
          + rewrite A1, <- E1. rewrite (entry_live ev WT st ix q' e' o' K Hix R'). exact Fq.
        - rewrite <- (entry_live ev WT st ix q' e' o' K Hix R'), <- (entry_live ev WT st ix q e o K Hix R), E1, (E2 eq_refl). reflexivity. }
      subst q'. rewrite R in R'. injection R' as <- <-. reflexivity.
    + destruct HP as [HP|[-> ->]].
      * assert (G : P ix' q' /\ ~ nobody ix' q') by (split; [exact HP|intros []]). exact (C ix' Hix' q' e' o' G R').
      * exfalso. apply Ek. rewrite R in R'. injection R' as _ <-. reflexivity.
Qed.

Lemma backfill_step P st q st' : Inv ev P nobody st -> wf_key tb q -> backfill ev ix st q = Some st' ->
  Inv ev (fun ix' q' => P ix' q' \/ (ix' = ix /\ q' = q)) nobody st' /\ eqc (rows ev st') (rows ev st).
Proof.
  intros INV WK. unfold backfill. pose proof (read_fields ev st q (index_fields tb [ix]) WT WK (index_fields_nonpk tb [ix])) as RF.
  destruct (get_primary ev st q (key_rec tb q) (index_fields tb [ix])) as [| | |e r];
    try (intros X; injection X as <-; split; [|intros p; reflexivity]; apply (inv_P ev P _ st INV);
         intros ix' q' e' o' Hx [HP|[-> ->]] R; [left; exact HP|congruence]).
  destruct RF as (o & R & Se & Lr).
  assert (A : agree [ix] r o).
  { apply (agree_sees tb _ (index_fields tb [ix])); [exact WT|intros x [<-|[]]; exact Hix|intros x Hx; exact Hx|exact Se]. }
  assert (Ew : (if tb_ttl tb then e else 0) = e).
  { destruct (tb_ttl tb) eqn:T; [reflexivity|]. symmetry. exact (proj2 (proj2 (i_keys _ _ _ _ INV _ _ _ R)) T). }
  assert (FIN : (ix_uniq ix = true -> unfound (get_secondary ev st ix r)) ->
     Inv ev (fun ix' q' => P ix' q' \/ (ix' = ix /\ q' = q)) nobody (put_secondary st ix r (if tb_ttl tb then e else 0)) /\
     eqc (rows ev (put_secondary st ix r (if tb_ttl tb then e else 0))) (rows ev st)).
  { intros U. destruct (put_own P st q e o r _ INV R A Ew U) as (K & S1 & C1). split; [|intros p; reflexivity].
    constructor.
    - exact K.
    - exact S1.
    - intros ix' Hx q' e' o' [HP _] R'. exact (C1 ix' q' e' o' Hx HP R').
    - intros i _ _ q' cs rest e' []. }
  destruct (ix_uniq ix) eqn:U; [|intros X; injection X as <-; apply FIN; congruence].
  destruct (get_secondary ev st ix r) as [| | |e1 old] eqn:G; try (intros X; injection X as <-; apply FIN; intros _; exact Logic.I).
  destruct (cells_dec (proj old (tb_pk tb)) q) as [E|E]; [|discriminate]. intros X; injection X as <-. split; [|intros p; reflexivity].
  (* the record is there already *)
  pose proof (secondary_found ev WT P nobody st ix r e1 old INV Hix (writable_removable ix Wr) U Lr G) as (q2 & o2 & R2 & E2 & _ & Pk2 & _).
  unfold pk_of in Pk2. rewrite E in Pk2. subst q2. rewrite R in R2. injection R2 as <- <-.
  apply (inv_P ev P _ st INV).
  - intros ix' q' e' o' Hx [HP|[-> ->]] R'; [left; exact HP|right].
    rewrite R in R'. injection R' as <- <-. destruct INV as [K Sn C Dt].
    unfold get_secondary in G. destruct (pidx st (ix_id ix, proj r (ix_fields ix), [])) as [[e2 rest]|] eqn:Pi; [|discriminate].
    destruct (expired ev e2) eqn:X2; [discriminate|]. destruct (e_fits ev (entry_pk tb ix (proj r (ix_fields ix)) rest)) eqn:F2; [|discriminate].
    cbn [negb] in G. injection G as -> Eold.
    assert (Hh : holds st ix (proj r (ix_fields ix)) rest e) by (unfold holds; rewrite U; exact Pi).
    destruct (Sn ix Hix (writable_removable ix Wr) _ _ _ Hh X2 F2) as (o3 & R3 & E3 & E4).
    assert (Epk : entry_pk tb ix (proj r (ix_fields ix)) rest = q).
    { rewrite <- E. subst old. rewrite <- E4.
      pose proof (pk_set_rest tb ix o3 r WT Hix Lr (eq_sym E3)) as Y. unfold pk_of in Y. rewrite Y. fold (pk_of tb o3).
      rewrite (rows_pk ev WT st _ _ _ K R3). rewrite E4. reflexivity. }
    rewrite Epk in R3. rewrite R in R3. injection R3 as <-. rewrite <- E3, <- E4 in Hh. exact Hh.
Qed.

(* the ALTER fails only if two rows have the same values *)
Lemma backfill_dup P st q : Inv ev P nobody st -> wf_key tb q -> backfill ev ix st q = None ->
  exists q' e o e' o', q' <> q /\ rows ev st q = Some (e, o) /\ rows ev st q' = Some (e', o') /\ proj o (ix_fields ix) = proj o' (ix_fields ix).
Proof.
  intros INV WK. unfold backfill. pose proof (read_fields ev st q (index_fields tb [ix]) WT WK (index_fields_nonpk tb [ix])) as RF.
  destruct (get_primary ev st q (key_rec tb q) (index_fields tb [ix])) as [| | |e r]; try discriminate.
  destruct RF as (o & R & Se & Lr).
  assert (A : agree [ix] r o).
  { apply (agree_sees tb _ (index_fields tb [ix])); [exact WT|intros x [<-|[]]; exact Hix|intros x Hx; exact Hx|exact Se]. }
  destruct (ix_uniq ix) eqn:U; [|discriminate].
  destruct (get_secondary ev st ix r) as [| | |e1 old] eqn:G; try discriminate.
  pose proof (secondary_found ev WT P nobody st ix r e1 old INV Hix (writable_removable ix Wr) U Lr G) as (q2 & o2 & R2 & E2 & _ & Pk2 & _).
  destruct (cells_dec (proj old (tb_pk tb)) q) as [E|E]; [discriminate|]. intros _. exists q2, e, o, e1, o2.
  split; [unfold pk_of in Pk2; congruence|]. split; [exact R|]. split; [exact R2|]. rewrite <- E2. symmetry. exact (proj1 (A ix (or_introl eq_refl))).
Qed.

Lemma backfill_all_spec P st qs : Inv ev P nobody st -> Forall (wf_key tb) qs ->
  match backfill_all ev ix st qs with
  | Some st' => Inv ev (fun ix' q' => P ix' q' \/ (ix' = ix /\ In q' qs)) nobody st' /\ eqc (rows ev st') (rows ev st)
  | None => exists q q' e o e' o', q' <> q /\ rows ev st q = Some (e, o) /\ rows ev st q' = Some (e', o') /\ proj o (ix_fields ix) = proj o' (ix_fields ix)
  end.
Proof.
  revert P st. induction qs as [|q qs IH]; intros P st INV F; cbn [backfill_all].
  - split; [|intros p; reflexivity]. apply (inv_P ev P _ st INV). intros ix' q' e' o' Hx [HP|[_ []]] R'. left. exact HP.
  - inversion F; subst. destruct (backfill ev ix st q) as [st1|] eqn:B.
    + destruct (backfill_step P st q st1 INV H1 B) as [I1 R1]. specialize (IH _ st1 I1 H2).
      destruct (backfill_all ev ix st1 qs) as [st2|].
      * destruct IH as [I2 R2]. split; [|intros p; rewrite R2; apply R1]. apply (inv_P ev _ _ st2 I2).
        intros ix' q' e' o' Hx HP R'. left.
        destruct HP as [HP|[X [Y|Y]]]; [left; left; exact HP|left; right; auto|right; auto].
      * destruct IH as (a & b & e & o & e' & o' & X). rewrite !R1 in X. exists a, b, e, o, e', o'. exact X.
    + destruct (backfill_dup P st q INV H1 B) as (a & e & o & e' & o' & X). exists q, a, e, o, e', o'. exact X.
Qed.
End B.

Lemma building_inv ix ev st l ev' st' : building ix ev st l ev' st' -> wf_table (e_tb ev) -> In ix (tb_indexes (e_tb ev)) ->
  writable_state (ix_state ix) = true -> ix_uniq ix = false ->
  forall P : index -> list cell -> Prop,
  (forall ix q, In ix (tb_indexes (e_tb ev)) -> P ix q -> writable_state (ix_state ix) = true) ->
  (forall ix q q', ix_uniq ix = true -> P ix q -> P ix q') ->
  Inv ev P nobody st -> e_tb ev' = e_tb ev /\ Inv ev' (fun ix' q => P ix' q \/ (ix' = ix /\ In q l)) nobody st'.
Proof.
  intros B. induction B; intros WT Hix Wr U P Pact Pu INV.
  - split; [reflexivity|]. apply (inv_P ev P _ st INV). intros ix' q' e' o' Hx [HP|[_ []]] R'. left. exact HP.
  - destruct (life_inv P ev st ev1 st1 H WT Pact Pu INV) as [E1 I1]. rewrite <- E1 in *.
    destruct (IHB WT Hix Wr U P Pact Pu I1) as [E2 I2]. split; [exact E2|exact I2].
  - destruct (backfill_step ev WT ix Hix Wr P st q st1 INV H H0) as [I1 _].
    destruct (IHB WT Hix Wr U (fun ix' q' => P ix' q' \/ (ix' = ix /\ q' = q))) as [E2 I2].
    + intros ix' q' Hx [HP|[-> _]]; [exact (Pact ix' q' Hx HP)|exact Wr].
    + intros ix' q1 q2 U' [HP|[-> _]]; [left; exact (Pu ix' q1 q2 U' HP)|congruence].
    + exact I1.
    + split; [exact E2|]. apply (inv_P ev' _ _ st' I2). intros ix' q' e' o' Hx HP R'. left.
      destruct HP as [HP|[X [Y|Y]]]; [left; left; exact HP|left; right; auto|right; auto].
Qed.

Lemma online_key ix ev st l ev' st' : wf_table (e_tb ev) -> In ix (tb_indexes (e_tb ev)) ->
  writable_state (ix_state ix) = true -> ix_uniq ix = false -> consistent_but ix ev st ->
  (forall q e o, rows ev st q = Some (e, o) -> In q l) ->
  building ix ev st l ev' st' -> consistent ev' st'.
Proof.
  intros WT Hix Wr U [K CB] Cov B.
  set (P := fun (ix' : index) (q : list cell) => In ix' (tb_indexes (e_tb ev)) /\ writable_state (ix_state ix') = true /\ (ix' <> ix \/ rows ev st q = None)).
  assert (I0 : Inv ev P nobody st).
  { constructor.
    - exact K.
    - intros ix' Hx Rm. exact (proj1 (CB ix' Hx) Rm).
    - intros ix' Hx q e o [(_ & W & [N|N]) _] R; [exact (proj2 (CB ix' Hx) W N q e o Logic.I R)|congruence].
    - intros i _ _ q cs rest e []. }
  destruct (building_inv ix ev st l ev' st' B WT Hix Wr U P) as [Et I1].
  - intros ix' q _ (_ & W & _). exact W.
  - intros ix' q q' U' (Hi & W & [N|N]); (split; [exact Hi|]; split; [exact W|]; left; [exact N || (intros ->; congruence)]).
  - exact I0.
  - destruct I1 as [K' Sn C _]. split; [exact K'|]. intros ix' Hx. split; [exact (Sn ix' Hx)|]. intros W q e o _ R.
    rewrite Et in *. apply (C ix' Hx q e o); [|exact R]. split; [|intros []].
    destruct (Z.eq_dec (ix_id ix') (ix_id ix)) as [Ei|Ni].
    + assert (ix' = ix) by (apply (ix_inj ev WT); assumption). subst ix'.
      destruct (rows ev st q) as [[e0 o0]|] eqn:R0; [right; split; [reflexivity|exact (Cov q e0 o0 R0)]|left].
      split; [exact Hix|]. auto.
    + left. split; [exact Hx|]. split; [exact W|]. left. intros ->. apply Ni. reflexivity.
Qed.

Lemma offline_unique ix ev st qs : wf_table (e_tb ev) -> In ix (tb_indexes (e_tb ev)) ->
  writable_state (ix_state ix) = true -> consistent_but ix ev st -> Forall (wf_key (e_tb ev)) qs ->
  (forall q e o, rows ev st q = Some (e, o) -> In q qs) ->
  match backfill_all ev ix st qs with
  | Some st' => consistent ev st' /\ eqc (rows ev st') (rows ev st)
  | None => exists q q' e o e' o', q' <> q /\ rows ev st q = Some (e, o) /\ rows ev st q' = Some (e', o') /\ proj o (ix_fields ix) = proj o' (ix_fields ix)
  end.
Proof.
  intros WT Hix Wr [K CB] F Cov.
  set (P := fun (ix' : index) (q : list cell) => writable_state (ix_state ix') = true /\ ix' <> ix).
  assert (I0 : Inv ev P nobody st).
  { constructor.
    - exact K.
    - intros ix' Hx Rm. exact (proj1 (CB ix' Hx) Rm).
    - intros ix' Hx q e o [(W & N) _] R. exact (proj2 (CB ix' Hx) W N q e o Logic.I R).
    - intros i _ _ q cs rest e []. }
  pose proof (backfill_all_spec ev WT ix Hix Wr P st qs I0 F) as B. destruct (backfill_all ev ix st qs) as [st'|]; [|exact B].
  destruct B as [[K' Sn C _] R']. split; [|exact R']. split; [exact K'|]. intros ix' Hx. split; [exact (Sn ix' Hx)|]. intros W q e o _ R.
  apply (C ix' Hx q e o); [|exact R]. split; [|intros []].
  destruct (Z.eq_dec (ix_id ix') (ix_id ix)) as [Ei|Ni].
  - assert (ix' = ix) by (apply (ix_inj ev WT); assumption). subst ix'. right. split; [reflexivity|].
    rewrite R' in R. exact (Cov q e o R).
  - left. split; [exact W|]. intros ->. apply Ni. reflexivity.
Qed.

(* ---------------- batches ---------------- *)
Lemma each_app {A} (f : ctx -> A -> option (ctx * Z)) l1 l2 c n :
  each f c (l1 ++ l2) n = match each f c l1 n with None => None | Some (c', m) => each f c' l2 m end.
Proof.
  revert c n. induction l1 as [|a l1 IH]; intros c n; cbn [app each]; [reflexivity|]. destruct (f c a) as [[c' k]|]; [apply IH|reflexivity].
Qed.
Lemma batches_spec {A} (f : ctx -> A -> option (ctx * Z)) auto st0 c bs n :
  snd (batches f auto st0 c bs n) = each f c (concat bs) n /\
  (each f c (concat bs) n = None -> auto = false -> fst (batches f auto st0 c bs n) = st0) /\
  (forall c' m, each f c (concat bs) n = Some (c', m) -> fst (batches f auto st0 c bs n) = c_st c').
Proof.
  revert st0 c n. induction bs as [|b bs IH]; intros st0 c n; cbn [batches concat].
  - cbn. split; [reflexivity|]. split; [discriminate|]. intros c' m X. injection X as <- <-. reflexivity.
  - rewrite each_app. destruct (each f c b n) as [[c1 n1]|] eqn:E.
    + destruct (IH (if auto then c_st c1 else st0) c1 n1) as (I1 & I2 & I3). split; [exact I1|]. split; [|exact I3].
      intros X ->. exact (I2 X eq_refl).
    + cbn. split; [reflexivity|]. split; [reflexivity|discriminate].
Qed.
