(* UPDATE, DELETE and INSERT of one row *)
From Verif.Dml Require Import Model Spec Base Inv Rows.
Local Open Scope Z_scope.

Lemma nonempty_affect tb s : s_updates s <> [] -> affect_pk tb s = touches s (tb_pk tb).
Proof. unfold affect_pk. destruct (s_updates s); [congruence|reflexivity]. Qed.
Lemma touches_false s fs f : touches s fs = false -> In f fs -> ~ In f (upd_fields s).
Proof.
  intros T Hf X. assert (touches s fs = true); [|congruence]. apply existsb_exists. exists f. split; [exact Hf|apply memb_In; exact X].
Qed.

Section Row.
Variable ev : env.
Notation tb := (e_tb ev).
Variable s : stmt.
Variable P : index -> list cell -> Prop.
Hypothesis WT : wf_table tb.
Hypothesis WS : wf_stmt tb s.
Hypothesis Wt : wf_time ev s.
Hypothesis Pact : forall ix q, In ix (tb_indexes tb) -> P ix q -> writable_state (ix_state ix) = true.
Hypothesis Pu : forall ix q q', ix_uniq ix = true -> P ix q -> P ix q'.
Hypothesis Act : forall ix, In ix (tb_indexes tb) -> writable s ix = true -> removable ix = true.
Notation all := (tb_indexes tb).

Section Upd.
Hypothesis Ne : s_updates s <> [].
Hypothesis Ig : s_ignore s = false.
Hypothesis Rep : s_replace s = false.
Hypothesis RC : reads_covered tb s.
Hypothesis Reg : affect_pk tb s = false \/ forall p, e_fits ev p = true.

Lemma new_row_facts st q e o vals : keys_ok ev st -> rows ev st q = Some (e, o) ->
  length (set_row s o vals) = tb_cols tb /\ existsb isnull (pk_of tb (set_row s o vals)) = false /\
  (forall f, In f (nonpk tb) -> fget (set_row s o vals) f = None -> tb_default tb f = None) /\
  (affect_pk tb s = false -> pk_of tb (set_row s o vals) = q).
Proof.
  intros K R. pose proof (rows_length ev _ _ _ _ R) as Lo. pose proof (rows_pk ev WT _ _ _ _ K R) as Pk.
  destruct (K _ _ _ R) as (_ & Nn & _). rewrite set_row_model.
  split; [rewrite apply_length; exact Lo|]. split; [|split].
  - destruct (existsb isnull (pk_of tb _)) eqn:X; [|reflexivity]. exfalso. apply existsb_exists in X. destruct X as [c0 [Hc Nc]].
    unfold pk_of, proj in Hc. apply in_map_iff in Hc. destruct Hc as [f [<- Hf]].
    assert (Lf : (f < length o)%nat) by (rewrite Lo; destruct WT as (_ & F & _); rewrite Forall_forall in F; exact (F f Hf)).
    destruct (fget (apply_updates s (slot_row s o) vals o) f) eqn:E; [discriminate|].
    destruct (apply_null s tb _ _ _ _ WS Lf E) as [E'|[_ E']]; [|contradiction].
    assert (Y : existsb isnull q = true); [|congruence]. rewrite <- Pk. apply existsb_exists. exists (fget o f).
    split; [apply in_map; exact Hf|rewrite E'; reflexivity].
  - intros f Np E. assert (Lf : (f < length o)%nat) by (rewrite Lo; apply In_nonpk in Np; tauto).
    destruct (apply_null s tb _ _ _ _ WS Lf E) as [E'|[E' _]]; [|exact E']. apply In_nonpk in Np. destruct Np as [Lc Nk].
    destruct (rows_nullok ev _ _ _ _ f K R Lc E') as [Y|Y]; [exact Y|contradiction].
  - intros Af. rewrite nonempty_affect in Af by exact Ne. rewrite <- Pk. apply proj_ext. intros f Hf. apply apply_out.
    exact (touches_false _ _ _ Af Hf).
Qed.

Lemma update_row_correct vals c t q : Inv ev P nobody (c_st c) -> ttl_ok ev c -> encode_pk tb t = Some q -> length t = tb_cols tb ->
  match update_row ev s vals c t with
  | None => exists e o q' e' o', rows ev (c_st c) q = Some (e, o) /\ satisfy s o = true /\
      q' <> q /\ rows ev (c_st c) q' = Some (e', o') /\ clash tb (writable s) (set_row s o vals) o'
  | Some (c', n) => Inv ev P nobody (c_st c') /\ ttl_ok ev c' /\ (s_keep s = false -> c_ttl c' = c_ttl c) /\
      ((rows ev (c_st c) q = None /\ c' = c /\ n = 0) \/
       exists e o, rows ev (c_st c) q = Some (e, o) /\
        ((satisfy s o = false /\ c' = c /\ n = 0) \/
         (satisfy s o = true /\ n = 1 /\
          eqc (rows ev (c_st c')) (cput (cdel (rows ev (c_st c)) q) (pk_of tb (set_row s o vals)) (if s_keep s then e else wts tb c) (set_row s o vals)) /\
          (Pfull ev s P -> others_free tb (writable s) (rows ev (c_st c)) q (set_row s o vals)))))
  end.
Proof.
  intros INV TO En Lt. pose proof (i_keys _ _ _ _ INV) as K.
  apply encode_pk_some in En. destruct En as [Ept Nnq]. 
  assert (Lq : length q = length (tb_pk tb)) by (rewrite <- Ept; apply pk_of_length).
  unfold update_row. assert (En : encode_pk tb t = Some q) by (apply encode_pk_some; auto). rewrite En.
  pose proof (primary_cases ev s WT (c_st c) q (key_rec tb q) (pk_key_rec tb q WT Lq) (fits_key_rec_length tb q) K) as PC.
  destruct (get_primary ev (c_st c) q (key_rec tb q) (field_ids tb s)) as [| | |e r].
  { split; [exact INV|]. split; [exact TO|]. split; [reflexivity|]. left. split; [|auto]. unfold rows. rewrite PC. reflexivity. }
  { split; [exact INV|]. split; [exact TO|]. split; [reflexivity|]. left. split; [apply PC|auto]. }
  { split; [exact INV|]. split; [exact TO|]. split; [reflexivity|]. left. split; [apply PC|auto]. }
  destruct PC as (Fq & o & R & Se & Lr & Pr).
  pose proof (rows_length ev _ _ _ _ R) as Lo. pose proof (rows_pk ev WT _ _ _ _ K R) as Pko.
  destruct (K _ _ _ R) as (_ & _ & E0). destruct (rows_info ev _ _ _ _ R) as (_ & Exe & stored & Pst & Ofull).
  assert (SR : slot_row s r = slot_row s o).
  { apply slot_row_eq; [congruence|]. intros f Hf Lf. apply Se. destruct (RC f Hf) as [X|[X|X]]; [auto|auto|lia]. }
  assert (SA : satisfy s r = satisfy s o) by (unfold satisfy; rewrite SR; reflexivity). rewrite SA.
  destruct (satisfy s o) eqn:Sat.
  2:{ split; [exact INV|]. split; [exact TO|]. split; [reflexivity|]. right. exists e, o. auto. }
  rewrite SR.
  set (o' := set_row s o vals). set (r' := apply_updates s (slot_row s o) vals r).
  destruct (new_row_facts _ _ _ _ vals K R) as (Lo' & Nn' & Nl' & Pk'). fold o' in Lo', Nn', Nl', Pk'.
  assert (Sr' : forall f, In f (upd_fields s) \/ fget r f = fget o f -> fget r' f = fget o' f).
  { intros f X. unfold r', o'. rewrite set_row_model. apply apply_same; [congruence|exact X]. }
  assert (Lr' : length r' = tb_cols tb) by (unfold r'; rewrite apply_length; exact Lr).
  assert (Prr : pk_of tb r' = pk_of tb o').
  { apply proj_ext. intros f Hf. apply Sr'. right. apply Se. left. exact Hf. }
  assert (Se' : sees tb (field_ids tb s) r' o') by (intros f X; apply Sr'; right; apply Se; exact X).
  set (p' := pk_of tb o') in *.
  assert (Er' : encode_pk tb r' = Some p') by (apply encode_pk_some; split; assumption).
  (* the expiry time *)
  match goal with |- context [remove_row ev ?x (affected tb s) q r] => set (c1 := x) end.
  assert (St1 : c_st c1 = c_st c) by (unfold c1; destruct (s_keep s && (0 <? c_ttl c) && _); reflexivity).
  assert (W1 : wts tb c1 = if s_keep s then e else wts tb c).
  { unfold c1, wts. destruct (tb_ttl tb) eqn:T.
    - destruct (TO T) as [T1 _]. destruct (Wt T) as [T2 _]. unfold expired in Exe. rewrite T in Exe. cbn [andb] in Exe.
      apply Z.ltb_ge in Exe. assert (X1 : (0 <? c_ttl c) = true) by (apply Z.ltb_lt; exact T1).
      assert (X2 : (0 <? e) = true) by (apply Z.ltb_lt; lia). rewrite X1, X2. destruct (s_keep s); reflexivity.
    - destruct (s_keep s); [symmetry; exact (E0 eq_refl)|reflexivity]. }
  assert (TO1 : ttl_ok ev c1).
  { intros T. unfold wts in W1. rewrite T in W1. rewrite W1. destruct (s_keep s); [|exact (TO T)].
    destruct (Wt T) as [T2 _]. unfold expired in Exe. rewrite T in Exe. cbn [andb] in Exe. apply Z.ltb_ge in Exe. lia. }
  assert (KT : s_keep s = false -> c_ttl c1 = c_ttl c) by (intros X; unfold c1; rewrite X; reflexivity).
  assert (W0 : tb_ttl tb = false -> wts tb c1 = 0) by apply wts_zero.
  pose proof (wts_live ev c1 TO1) as Wl.
  clearbody c1.
  set (c2 := remove_row ev c1 (affected tb s) q r (affect_pk tb s)).
  assert (Tt2 : c_ttl c2 = c_ttl c1) by reflexivity.
  assert (Ww2 : wts tb c2 = wts tb c1) by reflexivity.
  assert (ST2 : c_st c2 = let st := remove_indexes (affected tb s) (c_st c) r in if affect_pk tb s then remove_primary st q else st).
  { unfold c2. rewrite remove_row_st, St1. reflexivity. }
  assert (Ag : agree (affected tb s) r o).
  { apply (agree_sees tb _ (field_ids tb s)); [exact WT|apply affected_incl|apply index_fields_incl|exact Se]. }
  assert (Ag' : agree (affected tb s) r' o').
  { apply (agree_sees tb _ (field_ids tb s)); [exact WT|apply affected_incl|apply index_fields_incl|exact Se']. }
  unfold insert_row_gen. rewrite Er'.
  clearbody c2.
  (* the common end: the indexes are looked at, the row is written *)
  assert (FIN : forall D (partly ni : bool),
     Inv ev P D (c_st c2) -> (forall ix q', D ix q' -> In ix (affected tb s) /\ q' = p') -> (forall ix, In ix (affected tb s) -> D ix p') ->
     (forall ix, In ix all -> ~ In ix (affected tb s) ->
        exists o0, rows ev (c_st c2) p' = Some (wts tb c2, o0) /\ proj o' (ix_fields ix) = proj o0 (ix_fields ix) /\ proj o' (ix_rest ix) = proj o0 (ix_rest ix)) ->
     e_fits ev p' = true ->
     full_row tb p' (stored_row tb (option_map snd (prow (c_st c2) p')) r' (if partly then Some (update_field_ids tb s) else None)) = o' ->
     match match uniq_loop ev s (affected tb s) (fun _ _ => None) true r' (affected tb s) c2 0 with
           | Stop res => res
           | Go c' aff' => Some (put_row ev s c' (affected tb s) p' r' partly ni, aff' + 1) end with
     | None => exists q' e' o2, rows ev (c_st c2) q' = Some (e', o2) /\ (exists ix, In ix (affected tb s) /\ ~ D ix q' /\ ix_uniq ix = true /\ writable s ix = true /\ proj o' (ix_fields ix) = proj o2 (ix_fields ix))
     | Some (c3, _) => Inv ev P nobody (c_st c3) /\ eqc (rows ev (c_st c3)) (cput (rows ev (c_st c2)) p' (wts tb c2) o') /\ c_ttl c3 = c_ttl c2 /\
          clear ev s (c_st c2) r' (affected tb s)
     end).
  { intros D partly ni I2 HD HDq HN Fi Full.
    pose proof (loop_plain ev s (affected tb s) (fun _ _ => None) true r' (affected tb s) c2 0 eq_refl) as LP.
    destruct (uniq_loop ev s (affected tb s) (fun _ _ => None) true r' (affected tb s) c2 0) as [res|c' aff'].
    - destruct LP as (b & ix & a & e1 & old & E1 & E2 & E3 & E4 & _ & ->).
      assert (Hin : In ix (affected tb s)) by (rewrite E1; apply in_elt). assert (Hix : In ix all) by (apply (affected_incl tb s), Hin).
      destruct (secondary_found ev WT P D (c_st c2) ix r' e1 old I2 Hix (Act ix Hix E2) E3 Lr' E4) as (q' & o2 & R2 & E & ND & _).
      exists q', e1, o2. split; [exact R2|]. exists ix. rewrite <- (proj1 (Ag' ix Hin)). auto.
    - destruct LP as (-> & -> & Cl).
      assert (X : c_st (put_row ev s c2 (affected tb s) p' r' partly ni) =
                  put_primary ev (put_indexes s (affected tb s) (c_st c2) r' (wts tb c2)) p' r' (if partly then Some (update_field_ids tb s) else None) (wts tb c2)).
      { unfold put_row. destruct ni; reflexivity. }
      rewrite X.
      destruct (inv_put ev WT P D s (c_st c2) (affected tb s) p' r' o' (if partly then Some (update_field_ids tb s) else None) (wts tb c2) (put_indexes s (affected tb s) (c_st c2) r' (wts tb c2)) I2 (affected_incl tb s) Ag') as [Y1 Y2].
      + intros ix q' Hd. destruct (HD ix q' Hd). auto.
      + intros ix q'. exact (Pwr ev s P Pact ix q').
      + intros ix Hix Rm Hin. exact (HDq ix Hin).
      + exact HN.
      + intros ix rest e1 Hin Wr U Hp Ex1 Fi1. rewrite <- (proj1 (Ag' ix Hin)) in Hp, Fi1.
        exact (secondary_unfound ev _ _ _ (Cl ix Hin Wr U) _ _ Hp Ex1 Fi1).
      + exact Fi.
      + rewrite Ww2. exact Wl.
      + reflexivity.
      + exact Nn'.
      + rewrite Ww2. exact W0.
      + reflexivity.
      + exact Full.
      + split; [exact Y1|]. split; [exact Y2|]. split; [unfold put_row; destruct ni; reflexivity|exact Cl]. }
  cbn [negb orb].
  assert (Upd_ok : forall c3 , Inv ev P nobody (c_st c3) -> eqc (rows ev (c_st c3)) (cput (cdel (rows ev (c_st c)) q) p' (wts tb c2) o') ->
     c_ttl c3 = c_ttl c2 -> (Pfull ev s P -> others_free tb (writable s) (rows ev (c_st c)) q o') ->
     Inv ev P nobody (c_st c3) /\ ttl_ok ev c3 /\ (s_keep s = false -> c_ttl c3 = c_ttl c) /\
      ((rows ev (c_st c) q = None /\ c3 = c /\ 1 = 0) \/
       exists e0 o0, rows ev (c_st c) q = Some (e0, o0) /\
        ((satisfy s o0 = false /\ c3 = c /\ 1 = 0) \/
         (satisfy s o0 = true /\ 1 = 1 /\
          eqc (rows ev (c_st c3)) (cput (cdel (rows ev (c_st c)) q) (pk_of tb (set_row s o0 vals)) (if s_keep s then e0 else wts tb c) (set_row s o0 vals)) /\
          (Pfull ev s P -> others_free tb (writable s) (rows ev (c_st c)) q (set_row s o0 vals)))))).
  { intros c3 Z1 Z2 Z3 Z4. split; [exact Z1|]. split; [intros T; rewrite Z3, Tt2; exact (TO1 T)|]. split; [intros X; rewrite Z3, Tt2; exact (KT X)|].
    right. exists e, o. split; [exact R|]. right. split; [exact Sat|]. split; [reflexivity|]. split; [|exact Z4].
    rewrite Ww2, W1 in Z2. exact Z2. }
  destruct (affect_pk tb s) eqn:Af.
  - (* the primary key changes: everything is removed and inserted again *)
    assert (Aall : affected tb s = all) by (unfold affected; destruct (s_updates s); [reflexivity|rewrite Af; reflexivity]).
    assert (Fall : field_ids tb s = nonpk tb).
    { unfold field_ids. destruct (s_updates s); [congruence|]. rewrite Af. reflexivity. }
    assert (Ero : r = o).
    { apply rec_ext; [congruence|]. intros f Lf. apply Se. destruct (in_dec Nat.eq_dec f (tb_pk tb)) as [X|X]; [auto|]. right. rewrite Fall.
      apply In_nonpk. split; [rewrite <- Lr; exact Lf|exact X]. }
    assert (Ero' : r' = o') by (unfold r', o'; rewrite set_row_model, Ero; reflexivity).
    destruct Reg as [X|Reg']; [discriminate|].
    rewrite Aall in *. cbn zeta in ST2.
    destruct (inv_delete ev P WT Pu nobody (c_st c) q e o r INV R Ag (fun _ _ X => X)) as [I2 R2].
    rewrite <- ST2 in I2, R2.
    assert (R2s : forall q' e' o2, rows ev (c_st c2) q' = Some (e', o2) -> q' <> q /\ rows ev (c_st c) q' = Some (e', o2)).
    { intros q' e' o2 X. rewrite R2 in X. unfold cdel in X. destruct (cells_dec q q') as [<-|N]; [discriminate|]. split; [congruence|exact X]. }
    pose proof (primary_cases ev s WT (c_st c2) p' r' Prr Lr' (i_keys _ _ _ _ I2)) as PC2.
    assert (FIN2 : forall ni, e_fits ev p' = true -> rows ev (c_st c2) p' = None ->
      match match match uniq_loop ev s all (fun _ _ => None) true r' all c2 0 with
           | Stop res => res
           | Go c' aff' => Some (put_row ev s c' all p' r' (negb true && true) ni, aff' + 1) end
           with None => None | Some (c3, _) => Some (c3, 1) end with
       | None => exists e0 o0 q' e' o2, rows ev (c_st c) q = Some (e0, o0) /\ satisfy s o0 = true /\
           q' <> q /\ rows ev (c_st c) q' = Some (e', o2) /\ clash tb (writable s) (set_row s o0 vals) o2
       | Some (c3, n) => Inv ev P nobody (c_st c3) /\ ttl_ok ev c3 /\ (s_keep s = false -> c_ttl c3 = c_ttl c) /\
          ((rows ev (c_st c) q = None /\ c3 = c /\ n = 0) \/
           exists e0 o0, rows ev (c_st c) q = Some (e0, o0) /\
            ((satisfy s o0 = false /\ c3 = c /\ n = 0) \/
             (satisfy s o0 = true /\ n = 1 /\
              eqc (rows ev (c_st c3)) (cput (cdel (rows ev (c_st c)) q) (pk_of tb (set_row s o0 vals)) (if s_keep s then e0 else wts tb c) (set_row s o0 vals)) /\
              (Pfull ev s P -> others_free tb (writable s) (rows ev (c_st c)) q (set_row s o0 vals)))))
       end).
    { intros ni Fi Rn.
      assert (FF := FIN (fun ix q' => In ix all /\ q' = p') false ni (inv_absent ev P (c_st c2) p' all I2 Rn) (fun _ _ X => X) (fun _ X => conj X eq_refl)).
      cbn [negb andb]. 
      assert (Full : full_row tb p' (stored_row tb (option_map snd (prow (c_st c2) p')) r' None) = o').
      { apply full_stored; auto. intros C f Np. split; [rewrite Ero'; reflexivity|].
        destruct WT as (_ & _ & _ & _ & CT). rewrite (rows_prow ev _ _ (CT C) Fi Rn). reflexivity. }
      specialize (FF (fun ix Hix N => False_ind _ (N Hix)) Fi Full).
      destruct (match uniq_loop ev s all (fun _ _ => None) true r' all c2 0 with Stop res => res | Go c' aff' => Some (put_row ev s c' all p' r' false ni, aff' + 1) end) as [[c3 n3]|].
      - destruct FF as (Z1 & Z2 & Z3 & Z4). apply Upd_ok; [exact Z1| |exact Z3|].
        + intros p. rewrite Z2. unfold cput. destruct (cells_dec p' p); [reflexivity|]. apply R2.
        + intros PF q' e' o2 Nq Rq [X|(ix & Hix & U & Wr & X)].
          * assert (q' = p') by (rewrite <- (rows_pk ev WT _ _ _ _ K Rq); symmetry; exact X). subst q'.
            assert (rows ev (c_st c2) p' = Some (e', o2)); [|congruence]. rewrite R2. unfold cdel. destruct (cells_dec q p'); [congruence|exact Rq].
          * assert (Rq2 : rows ev (c_st c2) q' = Some (e', o2)) by (rewrite R2; unfold cdel; destruct (cells_dec q q'); [congruence|exact Rq]).
            apply (unfound_no_row ev WT P nobody (c_st c2) ix r' q' e' o2 I2 Hix U (Z4 ix Hix Wr U) (PF ix q' Hix U Wr) (fun X => X) Rq2).
            rewrite Ero'. exact X.
      - destruct FF as (q' & e' & o2 & Rq & ix & Hix & _ & U & Wr & X). destruct (R2s _ _ _ Rq) as [Nq Rq'].
        exists e, o, q', e', o2. split; [exact R|]. split; [exact Sat|]. split; [exact Nq|]. split; [exact Rq'|]. right. exists ix. auto. }
    destruct (get_primary ev (c_st c2) p' r' (field_ids tb s)) as [| | |e2 r2].
    + rewrite Reg' in PC2. discriminate.
    + apply FIN2; apply PC2.
    + apply FIN2; apply PC2.
    + rewrite Ig. destruct PC2 as (_ & o2 & R2' & _). destruct (R2s _ _ _ R2') as [Nq Rq].
      exists e, o, p', e2, o2. split; [exact R|]. split; [exact Sat|]. split; [exact Nq|]. split; [exact Rq|]. left.
      fold o'. fold p'. symmetry. exact (rows_pk ev WT _ _ _ _ K Rq).
  - (* the primary key stays *)
    specialize (Pk' eq_refl). cbn zeta in ST2.
    assert (R2 : eqc (rows ev (c_st c2)) (rows ev (c_st c))) by (intros p; rewrite ST2; apply rows_same, remove_indexes_rows).
    assert (Tpk : touches s (tb_pk tb) = false) by (rewrite <- (nonempty_affect tb s Ne); exact Af).
    assert (I2 : Inv ev P (fun ix q' => In ix (affected tb s) /\ q' = p') (c_st c2)).
    { rewrite ST2. eapply (inv_weaken ev P).
      - apply (inv_detach ev WT P Pu nobody (c_st c) (affected tb s) q e o r INV (affected_incl tb s) Ag (fun _ _ X => X) R).
      - intros ix q' [X1 X2]. right. rewrite Pk' in X2. auto.
      - intros ix q' [[]|X]. left. rewrite Pk'. exact X. }
    assert (NA : forall ix, In ix all -> ~ In ix (affected tb s) -> tb_ttl tb = false /\ proj o' (ix_fields ix) = proj o (ix_fields ix) /\ proj o' (ix_rest ix) = proj o (ix_rest ix)).
    { intros ix Hix N. unfold affected in N. rewrite Af in N. cbn [orb] in N. destruct (s_updates s) eqn:Us; [congruence|]. rewrite <- Us in *.
      destruct (tb_ttl tb); [contradiction|]. split; [reflexivity|].
      assert (Tf : touches s (ix_fields ix) = false).
      { destruct (touches s (ix_fields ix)) eqn:X; [|reflexivity]. exfalso. apply N. apply filter_In. auto. }
      destruct WT as (_ & _ & WI & _). destruct (WI ix Hix) as (_ & Rr & _).
      split; apply proj_ext; intros f Hf; unfold o'; rewrite set_row_model; apply apply_out; [exact (touches_false _ _ _ Tf Hf)|exact (touches_false _ _ _ Tpk (Rr f Hf))]. }
    assert (Fi : e_fits ev p' = true) by (rewrite Pk'; exact Fq).
    assert (FF := FIN _ true true I2 (fun _ _ X => X) (fun _ X => conj X eq_refl)).
    assert (Full : full_row tb p' (stored_row tb (option_map snd (prow (c_st c2) p')) r' (Some (update_field_ids tb s))) = o').
    { assert (Po : prow (c_st c2) p' = Some (e, stored)).
      { rewrite ST2, Pk'. unfold prow. rewrite remove_indexes_rows. exact Pst. }
      rewrite Po. apply full_stored; auto.
      - intros C. apply rec_ext; [congruence|]. intros f Lf. apply Sr'. right. apply Se.
        destruct (in_dec Nat.eq_dec f (tb_pk tb)) as [X|X]; [auto|]. right. unfold field_ids. destruct (s_updates s); [congruence|].
        rewrite C, !andb_false_r. apply In_nonpk. split; [rewrite <- Lr'; exact Lf|exact X].
      - intros C f Np. unfold update_field_ids. rewrite Rep. destruct (memb f (filter _ _)) eqn:M.
        + apply memb_In, filter_In in M. destruct M as [_ M]. apply Sr'. left. apply memb_In. exact M.
        + exists stored. split; [reflexivity|]. 
          assert (Nu : ~ In f (upd_fields s)).
          { intros X. apply memb_not in M. apply M. apply filter_In. split; [exact Np|apply memb_In; exact X]. }
          unfold o'. rewrite set_row_model. rewrite apply_out by exact Nu. rewrite Ofull. symmetry. apply fget_full_row. exact Np. }
    assert (HN : forall ix, In ix all -> ~ In ix (affected tb s) ->
        exists o0, rows ev (c_st c2) p' = Some (wts tb c2, o0) /\ proj o' (ix_fields ix) = proj o0 (ix_fields ix) /\ proj o' (ix_rest ix) = proj o0 (ix_rest ix)).
    { intros ix Hix N. destruct (NA ix Hix N) as (T & E1 & E2). exists o. rewrite R2, Pk', R, Ww2, (W0 T), (E0 T). auto. }
    specialize (FF HN Fi Full).
    cbn [negb andb].
    destruct (match uniq_loop ev s (affected tb s) (fun _ _ => None) true r' (affected tb s) c2 0 with Stop res => res | Go c' aff' => Some (put_row ev s c' (affected tb s) p' r' true true, aff' + 1) end) as [[c3 n3]|].
    + destruct FF as (Z1 & Z2 & Z3 & Z4). apply Upd_ok; [exact Z1| |exact Z3|].
      * intros p. rewrite Z2. unfold cput, cdel. rewrite Pk'. destruct (cells_dec q p); [reflexivity|]. apply R2.
      * intros PF q' e' o2 Nq Rq [X|(ix & Hix & U & Wr & X)].
        { apply Nq. rewrite <- (rows_pk ev WT _ _ _ _ K Rq), <- X. exact Pk'. }
        destruct (in_dec Z.eq_dec (ix_id ix) (map ix_id (affected tb s))) as [Y|Y].
        { apply in_map_iff in Y. destruct Y as [j [Ej Hj]].
          assert (j = ix) by (apply (ix_inj ev WT); [apply (affected_incl tb s), Hj|exact Hix|exact Ej]). subst j.
          assert (Rq2 : rows ev (c_st c2) q' = Some (e', o2)) by (rewrite R2; exact Rq).
          apply (unfound_no_row ev WT P _ (c_st c2) ix r' q' e' o2 I2 Hix U (Z4 ix Hj Wr U) (PF ix q' Hix U Wr)); [|exact Rq2|].
          - intros [_ E]. apply Nq. rewrite E. exact Pk'.
          - rewrite (proj1 (Ag' ix Hj)). exact X. }
        { destruct (NA ix Hix) as (_ & E1 & _); [intros Z; apply Y, in_map, Z|]. fold o' in X. rewrite E1 in X.
          apply Nq. symmetry. exact (uniq_two ev WT P Pu nobody (c_st c) ix q e o q' e' o2 INV Hix U (PF ix q Hix U Wr) (fun X => X) (fun X => X) R Rq X). }
    + destruct FF as (q' & e' & o2 & Rq & ix & Hin & ND & U & Wr & X). rewrite R2 in Rq.
      exists e, o, q', e', o2. split; [exact R|]. split; [exact Sat|]. split; [intros ->; apply ND; split; [exact Hin|symmetry; exact Pk']|].
      split; [exact Rq|]. right. exists ix. split; [apply (affected_incl tb s), Hin|]. auto.
Qed.
End Upd.
End Row.
