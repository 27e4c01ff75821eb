(* The invariant: indexes agree with rows, except that some rows are detached from some
   indexes while a row is being rewritten *)
From Verif.Dml Require Import Model Spec Base.
Local Open Scope Z_scope.

Record Inv (ev : env) (P D : index -> list cell -> Prop) (st : store) : Prop := mkInv {
  i_keys : keys_ok ev st;
  i_snd : forall ix, In ix (tb_indexes (e_tb ev)) -> removable ix = true -> sound ev st ix;
  i_cpl : forall ix, In ix (tb_indexes (e_tb ev)) -> complete_on ev st ix (fun q => P ix q /\ ~ D ix q);
  i_det : forall ix, In ix (tb_indexes (e_tb ev)) -> removable ix = true ->
     forall q cs rest e, D ix q -> holds st ix cs rest e -> expired ev e = false ->
       e_fits ev (entry_pk (e_tb ev) ix cs rest) = true -> entry_pk (e_tb ev) ix cs rest <> q }.

Definition nobody : index -> list cell -> Prop := fun _ _ => False.
Definition agree (ixs : list index) (r o : rec) : Prop :=
  forall ix, In ix ixs -> proj r (ix_fields ix) = proj o (ix_fields ix) /\ proj r (ix_rest ix) = proj o (ix_rest ix).

Lemma agree_key ixs r o ix : agree ixs r o -> In ix ixs -> rec_key ix r = rec_key ix o /\ rec_val ix r = rec_val ix o.
Proof. intros A Hix. destruct (A ix Hix) as [E1 E2]. unfold rec_key, rec_val. rewrite E1, E2. auto. Qed.

Section Inv.
Variable ev : env.
Notation tb := (e_tb ev).
Hypothesis WT : wf_table tb.
Variable P : index -> list cell -> Prop.
Hypothesis Pw : forall ix q, P ix q -> removable ix = true.
Hypothesis Pu : forall ix q q', ix_uniq ix = true -> P ix q -> P ix q'.

Lemma ix_inj ix ix' : In ix (tb_indexes tb) -> In ix' (tb_indexes tb) -> ix_id ix = ix_id ix' -> ix = ix'.
Proof. destruct WT as (_ & _ & _ & U & _). apply U. Qed.
Lemma key_inj ix ix' r r' : In ix (tb_indexes tb) -> In ix' (tb_indexes tb) -> rec_key ix r = rec_key ix' r' ->
  ix = ix' /\ proj r (ix_fields ix) = proj r' (ix_fields ix) /\
  (ix_uniq ix = false -> proj r (ix_rest ix) = proj r' (ix_rest ix)).
Proof.
  intros I1 I2 E. unfold rec_key in E. injection E as E1 E2 E3.
  assert (ix = ix') by (apply ix_inj; assumption). subst ix'. split; [reflexivity|]. split; [exact E2|].
  intros U. rewrite U in E3. exact E3.
Qed.

Lemma rows_info st q e o : rows ev st q = Some (e, o) ->
  e_fits ev q = true /\ expired ev e = false /\ exists stored, prow st q = Some (e, stored) /\ o = full_row tb q stored.
Proof.
  unfold rows. destruct (e_fits ev q); [|discriminate]. destruct (prow st q) as [[e' stored]|] eqn:E; [|discriminate].
  destruct (expired ev e') eqn:X; [discriminate|]. intros Y. injection Y as <- <-. split; [reflexivity|]. split; [exact X|].
  exists stored. auto.
Qed.
Lemma rows_length st q e o : rows ev st q = Some (e, o) -> length o = tb_cols tb.
Proof. intros R. destruct (rows_info _ _ _ _ R) as (_ & _ & stored & _ & ->). apply full_row_length. Qed.
Lemma rows_pk st q e o : keys_ok ev st -> rows ev st q = Some (e, o) -> pk_of tb o = q.
Proof.
  intros K R. destruct (rows_info _ _ _ _ R) as (_ & _ & stored & _ & ->). apply pk_full_row; [exact WT|].
  exact (proj1 (K _ _ _ R)).
Qed.
Lemma rows_nullok st q e o f : keys_ok ev st -> rows ev st q = Some (e, o) -> (f < tb_cols tb)%nat -> fget o f = None ->
  tb_default tb f = None \/ In f (tb_pk tb).
Proof.
  intros K R L N. destruct (in_dec Nat.eq_dec f (tb_pk tb)) as [X|X]; [right; exact X|left].
  destruct (rows_info _ _ _ _ R) as (_ & _ & stored & _ & ->).
  rewrite fget_full_row in N by (apply In_nonpk; auto). exact (read_cell_null _ _ _ N).
Qed.

Section D.
Variable D : index -> list cell -> Prop.

(* the entry of a live row has the row's key *)
Lemma entry_live st ix q e o : keys_ok ev st -> In ix (tb_indexes tb) -> rows ev st q = Some (e, o) ->
  entry_pk tb ix (proj o (ix_fields ix)) (proj o (ix_rest ix)) = q.
Proof.
  intros K Hix R. rewrite entry_pk_row; [exact (rows_pk _ _ _ _ K R)|exact WT|exact Hix|exact (rows_length _ _ _ _ R)].
Qed.

Lemma uniq_two st ix q e o q' e' o' : Inv ev P D st -> In ix (tb_indexes tb) -> ix_uniq ix = true ->
  P ix q -> ~ D ix q -> ~ D ix q' ->
  rows ev st q = Some (e, o) -> rows ev st q' = Some (e', o') -> proj o (ix_fields ix) = proj o' (ix_fields ix) -> q = q'.
Proof.
  intros [K _ C _] Hix U HP ND ND' R R' E.
  pose proof (C ix Hix q e o (conj HP ND) R) as H1.
  pose proof (C ix Hix q' e' o' (conj (Pu _ _ q' U HP) ND') R') as H2.
  unfold holds in H1, H2. rewrite U in H1, H2. rewrite E in H1. rewrite H1 in H2. injection H2 as _ E2.
  rewrite <- (entry_live st ix q e o K Hix R), <- (entry_live st ix q' e' o' K Hix R'). rewrite E, E2. reflexivity.
Qed.

(* entries of a row are removed from some indexes *)
Lemma inv_detach st ixs q e o r : Inv ev P D st -> incl ixs (tb_indexes tb) -> agree ixs r o ->
  (forall ix, In ix ixs -> ~ D ix q) -> rows ev st q = Some (e, o) ->
  Inv ev P (fun ix q' => D ix q' \/ (In ix ixs /\ q' = q)) (remove_indexes ixs st r).
Proof.
  intros INV Incl A ND R. pose proof INV as INV0. destruct INV as [K Sn C Dt].
  assert (Rs : forall p, rows ev (remove_indexes ixs st r) p = rows ev st p)
    by (apply rows_same, remove_indexes_rows).
  constructor.
  - intros q' e' o' R'. rewrite Rs in R'. exact (K _ _ _ R').
  - intros ix Hix Rm cs rest e' Hh Ex Fi. apply remove_indexes_some in Hh. destruct Hh as [Hh _].
    rewrite Rs. exact (Sn ix Hix Rm cs rest e' Hh Ex Fi).
  - intros ix Hix q' e' o' [HP NDq] R'. rewrite Rs in R'.
    assert (ND' : ~ D ix q') by tauto.
    pose proof (C ix Hix q' e' o' (conj HP ND') R') as H1.
    unfold holds. rewrite remove_indexes_other; [exact H1|].
    intros ix' Hix' Rm' E. destruct (agree_key _ _ _ _ A Hix') as [Ek _]. rewrite Ek in E.
    change (rec_key ix o' = rec_key ix' o) in E.
    destruct (key_inj ix ix' o' o Hix (Incl _ Hix') E) as (<- & E1 & E2).
    assert (q' <> q) by (intros ->; apply NDq; right; auto).
    destruct (ix_uniq ix) eqn:U.
    + apply H. exact (uniq_two st ix q' e' o' q e o INV0 Hix U HP ND' (ND ix Hix') R' R E1).
    + apply H. rewrite <- (entry_live st ix q' e' o' K Hix R'), <- (entry_live st ix q e o K Hix R), E1, (E2 eq_refl). reflexivity.
  - intros ix Hix Rm q' cs rest e' Hd Hh Ex Fi. apply remove_indexes_some in Hh. destruct Hh as [Hh Nk].
    destruct Hd as [Hd|[Hin ->]]; [exact (Dt ix Hix Rm q' cs rest e' Hd Hh Ex Fi)|]. intros Eq.
    destruct (Sn ix Hix Rm cs rest e' Hh Ex Fi) as (o1 & R1 & E1 & E2). rewrite Eq in R1. rewrite R in R1. injection R1 as -> <-.
    apply (Nk ix Hin Rm). destruct (agree_key _ _ _ _ A Hin) as [-> _]. unfold rec_key. rewrite E1, E2. reflexivity.
Qed.

Lemma inv_remove_primary st q : Inv ev P D st ->
  (forall ix, In ix (tb_indexes tb) -> removable ix = true -> D ix q) -> Inv ev P D (remove_primary st q).
Proof.
  intros [K Sn C Dt] Hd. constructor.
  - intros q' e' o' R. rewrite rows_remove in R. unfold cdel in R. destruct (cells_dec q q'); [discriminate|]. exact (K _ _ _ R).
  - intros ix Hix Rm cs rest e Hh Ex Fi. change (holds st ix cs rest e) in Hh.
    destruct (Sn ix Hix Rm cs rest e Hh Ex Fi) as (o & R & E). exists o. split; [|exact E].
    rewrite rows_remove. unfold cdel. destruct (cells_dec q (entry_pk tb ix cs rest)) as [X|X]; [|exact R].
    exfalso. exact (Dt ix Hix Rm q cs rest e (Hd ix Hix Rm) Hh Ex Fi (eq_sym X)).
  - intros ix Hix q' e o HP R. rewrite rows_remove in R. unfold cdel in R. destruct (cells_dec q q'); [discriminate|].
    exact (C ix Hix q' e o HP R).
  - exact Dt.
Qed.

Lemma inv_weaken (D' : index -> list cell -> Prop) st : Inv ev P D st -> (forall ix q, D' ix q -> D ix q) ->
  (forall ix q, D ix q -> D' ix q \/ rows ev st q = None) -> Inv ev P D' st.
Proof.
  intros [K Sn C Dt] Sub Sup. constructor; auto.
  - intros ix Hix q e o [HP ND] R. apply (C ix Hix q e o); [|exact R]. split; [exact HP|].
    intros Hd. destruct (Sup ix q Hd) as [X|X]; [contradiction|congruence].
  - intros ix Hix Rm q cs rest e Hd. exact (Dt ix Hix Rm q cs rest e (Sub _ _ Hd)).
Qed.

(* a row is written again, with its entries in the indexes it was detached from *)
Lemma inv_put s st ixs q r o upd w st1 :
  Inv ev P D st -> incl ixs (tb_indexes tb) -> agree ixs r o ->
  (forall ix q', D ix q' -> q' = q /\ In ix ixs) ->
  (forall ix q', In ix (tb_indexes tb) -> P ix q' -> writable s ix = true) ->
  (forall ix, In ix (tb_indexes tb) -> removable ix = true -> In ix ixs -> D ix q) ->
  (forall ix, In ix (tb_indexes tb) -> ~ In ix ixs ->
     exists o0, rows ev st q = Some (w, o0) /\ proj o (ix_fields ix) = proj o0 (ix_fields ix) /\ proj o (ix_rest ix) = proj o0 (ix_rest ix)) ->
  (forall ix rest e, In ix ixs -> writable s ix = true -> ix_uniq ix = true ->
     pidx st (ix_id ix, proj o (ix_fields ix), []) = Some (e, rest) ->
     expired ev e = false -> e_fits ev (entry_pk tb ix (proj o (ix_fields ix)) rest) = true -> False) ->
  e_fits ev q = true -> expired ev w = false -> pk_of tb o = q -> existsb isnull q = false ->
  (tb_ttl tb = false -> w = 0) ->
  st1 = put_indexes s ixs st r w ->
  full_row tb q (stored_row tb (option_map snd (prow st q)) r upd) = o ->
  Inv ev P nobody (put_primary ev st1 q r upd w) /\
  eqc (rows ev (put_primary ev st1 q r upd w)) (cput (rows ev st) q w o).
Proof.
  intros [K Sn C Dt] Incl A HD HPw HDq HN HF Fi Ex Pk Nn W0 -> Full.
  assert (Rs : forall p, rows ev (put_indexes s ixs st r w) p = rows ev st p)
    by (apply rows_same, put_indexes_rows).
  assert (RR : eqc (rows ev (put_primary ev (put_indexes s ixs st r w) q r upd w)) (cput (rows ev st) q w o)).
  { intros p. rewrite rows_put by assumption. unfold cput. rewrite Rs. unfold prow at 1. rewrite put_indexes_rows.
    fold (prow st q). rewrite Full. reflexivity. }
  split; [|exact RR].
  assert (Lo : length o = tb_cols tb) by (rewrite <- Full; apply full_row_length).
  assert (Own : forall ix, In ix (tb_indexes tb) -> entry_pk tb ix (proj o (ix_fields ix)) (proj o (ix_rest ix)) = q).
  { intros ix Hix. rewrite entry_pk_row by assumption. exact Pk. }
  assert (InDec : forall ix, In ix (tb_indexes tb) -> In ix ixs \/ ~ In ix ixs).
  { intros ix Hix. destruct (in_dec Z.eq_dec (ix_id ix) (map ix_id ixs)) as [X|X].
    - apply in_map_iff in X. destruct X as [j [E Hj]]. left. rewrite <- (ix_inj j ix (Incl _ Hj) Hix E). exact Hj.
    - right. intros Y. apply X. apply in_map. exact Y. }
  assert (Uq : forall i j, In i ixs -> In j ixs -> ix_id i = ix_id j -> i = j) by (intros; apply ix_inj; auto).
  constructor.
  - intros q' e' o' R. rewrite RR in R. unfold cput in R. destruct (cells_dec q q') as [<-|]; [|exact (K _ _ _ R)].
    injection R as <- <-. split; [rewrite <- Pk; apply pk_of_length|]. auto.
  - intros ix Hix Rm cs rest e Hh Ex' Fi'.
    change (holds (put_indexes s ixs st r w) ix cs rest e) in Hh.
    destruct (InDec ix Hix) as [Hin|Hin].
    + destruct (writable s ix) eqn:Wr.
      * destruct (ikey_dec (ix_id ix, cs, if ix_uniq ix then [] else rest) (rec_key ix r)) as [Ek|Ek].
        { unfold holds in Hh. rewrite Ek in Hh. rewrite put_indexes_one in Hh by assumption. injection Hh as <- Ev.
          destruct (agree_key _ _ _ _ A Hin) as [Ak Av]. rewrite Ak in Ek. rewrite Av in Ev.
          unfold rec_key in Ek. injection Ek as E1 E2. unfold rec_val in Ev.
          assert (rest = proj o (ix_rest ix)) by (destruct (ix_uniq ix); [symmetry; exact Ev|exact E2]). subst rest cs.
          exists o. rewrite RR, Own by exact Hix. unfold cput. destruct (cells_dec q q); [|contradiction]. auto. }
        { unfold holds in Hh. rewrite put_indexes_other in Hh.
          - destruct (Sn ix Hix Rm cs rest e Hh Ex' Fi') as (o1 & R1 & E1).
            exists o1. split; [|exact E1]. rewrite RR. unfold cput. destruct (cells_dec q (entry_pk tb ix cs rest)) as [X|X]; [|exact R1].
            exfalso. exact (Dt ix Hix Rm q cs rest e (HDq ix Hix Rm Hin) Hh Ex' Fi' (eq_sym X)).
          - intros j Hj _ E. unfold rec_key in E. injection E as Ei E1 E2.
            assert (ix = j) by (apply ix_inj; auto). subst j. apply Ek. unfold rec_key. rewrite E1, E2. reflexivity. }
      * unfold holds in Hh. rewrite put_indexes_other in Hh.
        { destruct (Sn ix Hix Rm cs rest e Hh Ex' Fi') as (o1 & R1 & E1).
          exists o1. split; [|exact E1]. rewrite RR. unfold cput. destruct (cells_dec q (entry_pk tb ix cs rest)) as [X|X]; [|exact R1].
          exfalso. exact (Dt ix Hix Rm q cs rest e (HDq ix Hix Rm Hin) Hh Ex' Fi' (eq_sym X)). }
        { intros j Hj Wj E. unfold rec_key in E. injection E as Ei E1 E2.
          assert (ix = j) by (apply ix_inj; auto). subst j. congruence. }
    + unfold holds in Hh. rewrite put_indexes_other in Hh.
      * destruct (Sn ix Hix Rm cs rest e Hh Ex' Fi') as (o1 & R1 & E1 & E2). rewrite RR. unfold cput.
        destruct (cells_dec q (entry_pk tb ix cs rest)) as [X|X]; [|exists o1; auto].
        destruct (HN ix Hix Hin) as (o0 & R0 & F1 & F2). rewrite <- X in R1. rewrite R0 in R1. injection R1 as -> ->.
        exists o. rewrite F1, F2. auto.
      * intros j Hj _ E. apply Hin. unfold rec_key in E. injection E as Ei E1 E2.
        assert (ix = j) by (apply ix_inj; auto). subst j. exact Hj.
  - intros ix Hix q' e' o' [HP _] R'. rewrite RR in R'. unfold cput in R'.
    change (holds (put_indexes s ixs st r w) ix (proj o' (ix_fields ix)) (proj o' (ix_rest ix)) e').
    change (pidx (put_indexes s ixs st r w) (rec_key ix o') = Some (e', rec_val ix o')).
    destruct (cells_dec q q') as [<-|Nq].
    + injection R' as <- <-. destruct (InDec ix Hix) as [Hin|Hin].
      * destruct (agree_key _ _ _ _ A Hin) as [<- <-]. apply put_indexes_one; [exact Uq|exact Hin|exact (HPw ix q Hix HP)].
      * destruct (HN ix Hix Hin) as (o0 & R0 & F1 & F2).
        assert (NDq : ~ D ix q) by (intros X; apply Hin; exact (proj2 (HD ix q X))).
        pose proof (C ix Hix q w o0 (conj HP NDq) R0) as H1.
        unfold rec_key, rec_val. rewrite F1, F2. rewrite put_indexes_other; [exact H1|].
        intros j Hj _ E. apply Hin. unfold rec_key in E. injection E as Ei E1 E2.
        assert (ix = j) by (apply ix_inj; auto). subst j. exact Hj.
    + assert (NDq : ~ D ix q') by (intros X; apply Nq; symmetry; exact (proj1 (HD ix q' X))).
      pose proof (C ix Hix q' e' o' (conj HP NDq) R') as H1.
      rewrite put_indexes_other; [exact H1|].
      intros j Hj Wj E. destruct (agree_key _ _ _ _ A Hj) as [Ek _]. rewrite Ek in E.
      destruct (key_inj ix j o' o Hix (Incl _ Hj) E) as (<- & E1 & E2).
      destruct (ix_uniq ix) eqn:U.
      * unfold holds in H1. rewrite U in H1. rewrite E1 in H1.
        destruct (rows_info _ _ _ _ R') as (Fq & Eq & _).
        apply (HF ix _ _ Hj Wj U H1 Eq). rewrite <- E1. rewrite (entry_live st ix q' e' o' K Hix R'). exact Fq.
      * apply Nq. rewrite <- (entry_live st ix q' e' o' K Hix R'). rewrite E1, (E2 eq_refl). symmetry. apply Own. exact Hix.
  - intros ix Hix Rm q' cs rest e [].
Qed.

(* ---------------- reading a UNIQUE index ---------------- *)
Lemma secondary_found st ix r e old : Inv ev P D st -> In ix (tb_indexes tb) -> removable ix = true -> ix_uniq ix = true ->
  length r = tb_cols tb ->
  get_secondary ev st ix r = Found e old ->
  exists q o, rows ev st q = Some (e, o) /\ proj r (ix_fields ix) = proj o (ix_fields ix) /\ ~ D ix q /\
    pk_of tb old = q /\ length old = tb_cols tb.
Proof.
  intros [K Sn C Dt] Hix Rm U L. unfold get_secondary.
  destruct (pidx st (ix_id ix, proj r (ix_fields ix), [])) as [[e' rest]|] eqn:E; [|discriminate].
  destruct (expired ev e') eqn:X; [discriminate|]. destruct (e_fits ev _) eqn:Fi; [|discriminate]. cbn [negb].
  intros Y. injection Y as -> <-.
  assert (Hh : holds st ix (proj r (ix_fields ix)) rest e) by (unfold holds; rewrite U; exact E).
  destruct (Sn ix Hix Rm _ _ _ Hh X Fi) as (o & R & E1 & E2).
  exists (entry_pk tb ix (proj r (ix_fields ix)) rest), o. split; [exact R|]. split; [symmetry; exact E1|]. split.
  - intros Hd. exact (Dt ix Hix Rm _ _ _ _ Hd Hh X Fi eq_refl).
  - split; [|rewrite set_all_length; exact L]. subst rest. rewrite pk_set_rest; [|exact WT|exact Hix|exact L|symmetry; exact E1].
    exact (rows_pk _ _ _ _ K R).
Qed.
Definition unfound (g : getres) : Prop := match g with Found _ _ => False | _ => True end.
Lemma secondary_unfound st ix r : unfound (get_secondary ev st ix r) ->
  forall rest e, pidx st (ix_id ix, proj r (ix_fields ix), []) = Some (e, rest) -> expired ev e = false ->
    e_fits ev (entry_pk tb ix (proj r (ix_fields ix)) rest) = true -> False.
Proof.
  unfold get_secondary. intros N rest e E X Fi. rewrite E, X, Fi in N. exact N.
Qed.
Lemma unfound_no_row st ix r q e o : Inv ev P D st -> In ix (tb_indexes tb) -> ix_uniq ix = true ->
  unfound (get_secondary ev st ix r) -> P ix q -> ~ D ix q -> rows ev st q = Some (e, o) ->
  proj r (ix_fields ix) <> proj o (ix_fields ix).
Proof.
  intros [K Sn C Dt] Hix U N HP ND R E.
  pose proof (C ix Hix q e o (conj HP ND) R) as H1. unfold holds in H1. rewrite U in H1.
  destruct (rows_info _ _ _ _ R) as (Fq & Xq & _).
  refine (secondary_unfound st ix r N (proj o (ix_rest ix)) e _ Xq _).
  - rewrite E. exact H1.
  - rewrite E. rewrite (entry_live st ix q e o K Hix R). exact Fq.
Qed.
(* entries only disappear: what was not found is not found *)
Lemma unfound_mono st st' ix r : (forall k v, pidx st' k = Some v -> pidx st k = Some v) ->
  unfound (get_secondary ev st ix r) -> unfound (get_secondary ev st' ix r).
Proof.
  unfold get_secondary. intros M. destruct (pidx st' _) as [v|] eqn:E; [|intros _; exact Logic.I].
  rewrite (M _ _ E). auto.
Qed.
End D.
End Inv.
