(* INSERT and DELETE of one row; statements *)
From Verif.Dml Require Import Model Spec Base Inv Rows Update.
Local Open Scope Z_scope.

(* the columns an expression reads are read, except in an INSERT .. ON DUPLICATE KEY UPDATE
   that leaves the primary key alone, in a column store *)
Lemma covered tb s : upd_or_del s = true \/ (s_updates s <> [] /\ (tb_cstore tb = false \/ touches s (tb_pk tb) = true)) -> reads_covered tb s.
Proof.
  intros C f Hf. destruct (in_dec Nat.eq_dec f (tb_pk tb)) as [X|X]; [auto|].
  destruct (Nat.lt_ge_cases f (tb_cols tb)) as [L|L]; [|auto]. right. left.
  assert (Np : In f (nonpk tb)) by (apply In_nonpk; auto).
  assert (Cf : upd_or_del s = true -> In f (cond_fields tb s)).
  { intros U. unfold cond_fields. rewrite U. apply filter_In. split; [exact Np|apply memb_In; exact Hf]. }
  unfold field_ids. destruct (s_updates s) eqn:E.
  - destruct C as [C|[C _]]; [|congruence]. apply in_or_app. right. exact (Cf C).
  - destruct (negb (affect_pk tb s) && negb (tb_ttl tb) && tb_cstore tb) eqn:B; [|exact Np].
    destruct C as [C|[_ [C|C]]].
    + apply in_or_app. right. exact (Cf C).
    + rewrite C, !andb_false_r in B. discriminate.
    + unfold affect_pk in B. rewrite E, C in B. discriminate.
Qed.

Section Row.
Variable ev : env.
Notation tb := (e_tb ev).
Variable s : stmt.
Variable P : index -> list cell -> Prop.
Hypothesis WT : wf_table tb.
Hypothesis WS : wf_stmt tb s.
Hypothesis Wt : wf_time ev s.
Hypothesis Pact : forall ix q, In ix (tb_indexes tb) -> P ix q -> writable_state (ix_state ix) = true.
Hypothesis Pu : forall ix q q', ix_uniq ix = true -> P ix q -> P ix q'.
Hypothesis Act : forall ix, In ix (tb_indexes tb) -> writable s ix = true -> removable ix = true.
Notation all := (tb_indexes tb).

Lemma delete_row_correct c t q : s_updates s = [] -> reads_covered tb s -> Inv ev P nobody (c_st c) -> encode_pk tb t = Some q -> length t = tb_cols tb ->
  exists c' n, delete_row ev s c all t = Some (c', n) /\ Inv ev P nobody (c_st c') /\ c_ttl c' = c_ttl c /\
      ((rows ev (c_st c) q = None /\ c' = c /\ n = 0) \/
       exists e o, rows ev (c_st c) q = Some (e, o) /\
        ((satisfy s o = false /\ c' = c /\ n = 0) \/
         (satisfy s o = true /\ n = 1 /\ eqc (rows ev (c_st c')) (cdel (rows ev (c_st c)) q)))).
Proof.
  intros Up RC INV En Lt. pose proof (i_keys _ _ _ _ INV) as K. unfold delete_row. rewrite En.
  apply encode_pk_some in En. destruct En as [Ept Nnq].
  pose proof (primary_cases ev s WT (c_st c) q t Ept Lt K) as PC.
  destruct (get_primary ev (c_st c) q t (field_ids tb s)) as [| | |e r].
  - exists c, 0. split; [reflexivity|]. split; [exact INV|]. split; [reflexivity|]. left. split; [|auto]. unfold rows. rewrite PC. reflexivity.
  - exists c, 0. split; [reflexivity|]. split; [exact INV|]. split; [reflexivity|]. left. split; [apply PC|auto].
  - exists c, 0. split; [reflexivity|]. split; [exact INV|]. split; [reflexivity|]. left. split; [apply PC|auto].
  - destruct PC as (Fq & o & R & Se & Lr & Pr). pose proof (rows_length ev _ _ _ _ R) as Lo.
    assert (SR : slot_row s r = slot_row s o).
    { apply slot_row_eq; [congruence|]. intros f Hf Lf. apply Se. destruct (RC f Hf) as [X|[X|X]]; [auto|auto|lia]. }
    assert (SA : satisfy s r = satisfy s o) by (unfold satisfy; rewrite SR; reflexivity). rewrite SA.
    destruct (satisfy s o) eqn:Sat.
    + exists (remove_row ev c all q r true), 1. split; [reflexivity|].
      assert (Ag : agree all r o).
      { apply (agree_sees tb _ (field_ids tb s)); [exact WT|intros x Hx; exact Hx| |exact Se].
        pose proof (index_fields_incl tb s) as X. unfold affected in X. rewrite Up in X. exact X. }
      destruct (inv_delete ev P WT Pu nobody (c_st c) q e o r INV R Ag (fun _ _ X => X)) as [I2 R2].
      rewrite remove_row_st. cbn zeta. split; [exact I2|]. split; [reflexivity|]. right. exists e, o. auto.
    + exists c, 0. split; [reflexivity|]. split; [exact INV|]. split; [reflexivity|]. right. exists e, o. auto.
Qed.

Section Ins.
Hypothesis Nd : s_node s = InsertNode.
(* INSERT .. ON DUPLICATE KEY UPDATE *)
Hypothesis Rep : on_dup s = true -> s_replace s = false.
Hypothesis RC : on_dup s = true -> reads_covered tb s.
Hypothesis Reg : on_dup s = true -> affect_pk tb s = false \/ forall p, e_fits ev p = true.

Lemma satisfy_insert o : satisfy s o = true.
Proof. unfold satisfy, upd_or_del. rewrite Nd, andb_false_r. reflexivity. Qed.
Lemma on_dup_updates : on_dup s = true -> s_updates s <> [].
Proof. unfold on_dup. rewrite Nd. destruct (s_updates s); [discriminate|congruence]. Qed.
Lemma not_on_dup : on_dup s = false -> s_updates s = [].
Proof. unfold on_dup. rewrite Nd. destruct (s_updates s); [reflexivity|discriminate]. Qed.

(* the end of insert_row *)
Lemma insert_put c r p (partly ni : bool) : Inv ev P (fun ix q' => In ix all /\ q' = p) (c_st c) -> ttl_ok ev c -> wf_row tb r -> pk_of tb r = p ->
  e_fits ev p = true -> clear ev s (c_st c) r all ->
  (if partly then s_replace s = true else rows ev (c_st c) p = None) ->
  Inv ev P nobody (c_st (put_row ev s c all p r partly ni)) /\
  eqc (rows ev (c_st (put_row ev s c all p r partly ni))) (cput (rows ev (c_st c)) p (wts tb c) r) /\
  c_ttl (put_row ev s c all p r partly ni) = c_ttl c.
Proof.
  intros I2 TO (Lr & Nn & Nl) Pk Fi Cl Old.
  assert (X : c_st (put_row ev s c all p r partly ni) =
              put_primary ev (put_indexes s all (c_st c) r (wts tb c)) p r (if partly then Some (update_field_ids tb s) else None) (wts tb c)).
  { unfold put_row. destruct ni; reflexivity. }
  rewrite X.
  destruct (inv_put ev WT P (fun ix q' => In ix all /\ q' = p) s (c_st c) all p r r (if partly then Some (update_field_ids tb s) else None) (wts tb c)
     (put_indexes s all (c_st c) r (wts tb c)) I2 (fun _ X => X)) as [Y1 Y2].
  - intros ix _. auto.
  - intros ix q' [A B]. auto.
  - intros ix q'. exact (Pwr ev s P Pact ix q').
  - intros ix Hix _ _. auto.
  - intros ix Hix N. contradiction.
  - intros ix rest e1 Hin Wr U Hp Ex1 Fi1. exact (secondary_unfound ev _ _ _ (Cl ix Hin Wr U) _ _ Hp Ex1 Fi1).
  - exact Fi.
  - apply wts_live. exact TO.
  - exact Pk.
  - rewrite <- Pk. exact Nn.
  - apply wts_zero.
  - reflexivity.
  - apply full_stored; auto.
    + intros f Np. apply Nl. apply In_nonpk in Np. tauto.
    + intros C f Np. destruct partly.
      * unfold update_field_ids. rewrite Old. assert (M : memb f (nonpk tb) = true) by (apply memb_In; exact Np). rewrite M. reflexivity.
      * split; [reflexivity|]. destruct WT as (_ & _ & _ & _ & CT). rewrite (rows_prow ev _ _ (CT C) Fi Old). reflexivity.
  - split; [exact Y1|]. split; [exact Y2|]. unfold put_row. destruct ni; reflexivity.
Qed.

Lemma insert_row_correct c r : Inv ev P nobody (c_st c) -> ttl_ok ev c -> wf_row tb r ->
  match insert_row ev s c r with
  | None => Pfull ev s P -> insert_spec ev s (wts tb c) (rows ev (c_st c)) r Fails
  | Some (c', n) => Inv ev P nobody (c_st c') /\ ttl_ok ev c' /\ (s_keep s = false -> c_ttl c' = c_ttl c) /\
      (Pfull ev s P -> insert_spec ev s (wts tb c) (rows ev (c_st c)) r (Does (rows ev (c_st c')) n))
  end.
Proof.
  intros INV TO WR. pose proof (i_keys _ _ _ _ INV) as K. pose proof WR as WR0. destruct WR0 as (Lr & Nn & Nl).
  set (p := pk_of tb r) in *. unfold insert_row, insert_row_gen.
  assert (En : encode_pk tb r = Some p) by (apply encode_pk_some; auto). rewrite En. cbn [negb orb].
  pose proof (primary_cases ev s WT (c_st c) p r eq_refl Lr K) as PC.
  set (T := rows ev (c_st c)) in *.
  (* ON DUPLICATE KEY UPDATE *)
  assert (UPD : forall old q e o, s_ignore s = false -> on_dup s = true -> pk_of tb old = q -> length old = tb_cols tb -> T q = Some (e, o) ->
     e_fits ev p = true -> (Pfull ev s P -> first_clash tb (writable s) T r q e o) ->
     match (match update_row ev s r c old with Some (c', n) => Some (c', if n =? 1 then 2 else n) | None => None end) with
     | None => Pfull ev s P -> insert_spec ev s (wts tb c) T r Fails
     | Some (c', n) => Inv ev P nobody (c_st c') /\ ttl_ok ev c' /\ (s_keep s = false -> c_ttl c' = c_ttl c) /\
         (Pfull ev s P -> insert_spec ev s (wts tb c) T r (Does (rows ev (c_st c')) n))
     end).
  { intros old q e o Ig Od Pk Lo R Fp FC.
    assert (Eo : encode_pk tb old = Some q).
    { apply encode_pk_some. split; [exact Pk|]. exact (proj1 (proj2 (K _ _ _ R))). }
    pose proof (update_row_correct ev s P WT WS Wt Pact Pu Act (on_dup_updates Od) Ig (Rep Od) (RC Od) (Reg Od) r c old q INV TO Eo Lo) as U.
    destruct (update_row ev s r c old) as [[c' n]|].
    - destruct U as (U1 & U2 & U3 & U4). split; [exact U1|]. split; [exact U2|]. split; [exact U3|]. intros PF.
      destruct U4 as [[X _]|(e0 & o0 & R0 & U4)]; [unfold T in R; congruence|]. fold T in R0. rewrite R in R0. injection R0 as <- <-.
      destruct U4 as [[X _]|(_ & -> & U5 & U6)]; [rewrite satisfy_insert in X; discriminate|].
      apply ins_update with q e o; auto. cbn. apply set_ok; [exact (U6 PF)|exact U5].
    - intros PF. destruct U as (e0 & o0 & q' & e' & o' & R0 & _ & Nq & R' & Cl). fold T in R0. rewrite R in R0. injection R0 as <- <-.
      apply ins_update with q e o; auto. apply set_dup with q' e' o'; auto. }
  (* REPLACE *)
  assert (REPL : forall c0 (partly ni : bool) pre, s_ignore s = false -> on_dup s = false -> s_replace s = true -> e_fits ev p = true ->
     Inv ev P (fun ix q' => In ix all /\ q' = p) (c_st c0) -> eqc (rows ev (c_st c0)) T -> c_ttl c0 = c_ttl c ->
     (pre = [] /\ T p = None \/ pre = [p] /\ exists e o, T p = Some (e, o)) ->
     (if partly then True else T p = None) ->
     match (match uniq_loop ev s all (fun c old => match update_row ev s r c old with Some (c', n) => Some (c', if n =? 1 then 2 else n) | None => None end) false r all c0 (Z.of_nat (length pre)) with
            | Stop res => res
            | Go c' aff' => Some (put_row ev s c' all p r partly ni, aff' + 1) end) with
     | None => Pfull ev s P -> insert_spec ev s (wts tb c) T r Fails
     | Some (c', n) => Inv ev P nobody (c_st c') /\ ttl_ok ev c' /\ (s_keep s = false -> c_ttl c' = c_ttl c) /\
         (Pfull ev s P -> insert_spec ev s (wts tb c) T r (Does (rows ev (c_st c')) n))
     end).
  { intros c0 partly ni pre Ig Od Rp Fp I0 R0 Tt Hpre Hpart.
    destruct (loop_replace ev s P WT Pu Act (fun c old => match update_row ev s r c old with Some (c', n) => Some (c', if n =? 1 then 2 else n) | None => None end)
       r p Nd Ig (not_on_dup Od) Rp Lr all (fun ix q' => In ix all /\ q' = p) c0 (Z.of_nat (length pre)) (fun _ X => X) I0 (fun _ _ X => proj2 X) (fun _ X => conj X eq_refl))
       as (c' & ds & E1 & E2 & E3 & E4 & E5 & E6 & E7 & E8 & E9).
    rewrite E1.
    assert (TO' : ttl_ok ev c') by (intros X; rewrite E2, Tt; exact (TO X)).
    assert (Ww : wts tb c' = wts tb c) by (unfold wts; rewrite E2, Tt; reflexivity).
    destruct (insert_put c' r p partly ni E3 TO' WR eq_refl Fp E9) as (I3 & R3 & T3).
    { destruct partly; [exact Rp|]. rewrite E7, R0. destruct (in_dec cells_dec p ds); [reflexivity|exact Hpart]. }
    split; [exact I3|]. split; [intros X; rewrite T3; exact (TO' X)|]. split; [intros _; rewrite T3, E2; exact Tt|]. intros PF.
    replace (Z.of_nat (length pre) + Z.of_nat (length ds) + 1) with (1 + Z.of_nat (length (pre ++ ds))) by (rewrite app_length; lia).
    assert (Pre : forall q, In q pre -> q = p) by (intros q; destruct Hpre as [[-> _]|[-> _]]; [intros []|intros [X|[]]; auto]).
    apply ins_replace with (qs := pre ++ ds); auto.
    - destruct Hpre as [[-> _]|[-> _]]; [exact E4|]. cbn. constructor; assumption.
    - intros q. split.
      + intros X. apply in_app_or in X. destruct X as [X|X].
        * destruct Hpre as [[-> _]|[-> (e & o & R)]]; [destruct X|]. destruct X as [<-|[]]. exists e, o. split; [exact R|]. left.
          symmetry. exact (rows_pk ev WT _ _ _ _ K R).
        * destruct (E6 q X) as (e & o & ix & Y1 & Y2 & Y3 & Y4 & Y5). exists e, o. rewrite R0 in Y1. split; [exact Y1|]. right. exists ix. auto.
      + intros (e & o & R & Cl). destruct (cells_dec q p) as [->|Nq].
        * apply in_or_app. left. destruct Hpre as [[_ X]|[-> _]]; [congruence|]. left. reflexivity.
        * destruct Cl as [X|(ix & Hix & U & Wr & X)]; [exfalso; apply Nq; rewrite <- (rows_pk ev WT _ _ _ _ K R); symmetry; exact X|].
          apply in_or_app. right. destruct (in_dec cells_dec q ds) as [Y|Y]; [exact Y|exfalso].
          assert (R' : rows ev (c_st c') q = Some (e, o)) by (rewrite E7, R0; destruct (in_dec cells_dec q ds); [contradiction|exact R]).
          apply (unfound_no_row ev WT P _ (c_st c') ix r q e o E3 Hix U (E9 ix Hix Wr U) (PF ix q Hix U Wr)); [|exact R'|exact X].
          intros [_ Z0]. contradiction.
    - intros q. rewrite R3, Ww. fold p. unfold cput. destruct (cells_dec p q) as [|Nq]; [reflexivity|]. rewrite E7, R0.
      destruct (in_dec cells_dec q ds) as [Y|Y], (in_dec cells_dec q (pre ++ ds)) as [Z0|Z0]; try reflexivity.
      + exfalso. apply Z0, in_or_app. right. exact Y.
      + apply in_app_or in Z0. destruct Z0 as [Z0|Z0]; [exfalso; apply Nq; symmetry; exact (Pre q Z0)|contradiction]. }
  (* no row has the primary key *)
  assert (NEW : forall ni, e_fits ev p = true -> T p = None ->
     match (match uniq_loop ev s all (fun c old => match update_row ev s r c old with Some (c', n) => Some (c', if n =? 1 then 2 else n) | None => None end) false r all c 0 with
            | Stop res => res
            | Go c' aff' => Some (put_row ev s c' all p r false ni, aff' + 1) end) with
     | None => Pfull ev s P -> insert_spec ev s (wts tb c) T r Fails
     | Some (c', n) => Inv ev P nobody (c_st c') /\ ttl_ok ev c' /\ (s_keep s = false -> c_ttl c' = c_ttl c) /\
         (Pfull ev s P -> insert_spec ev s (wts tb c) T r (Does (rows ev (c_st c')) n))
     end).
  { intros ni Fp Rn. pose proof (inv_absent ev P (c_st c) p all INV Rn) as I0.
    destruct (s_ignore s || on_dup s || negb (s_replace s)) eqn:M.
    - pose proof (loop_plain ev s all (fun c old => match update_row ev s r c old with Some (c', n) => Some (c', if n =? 1 then 2 else n) | None => None end) false r all c 0 M) as LP.
      destruct (uniq_loop ev s all _ false r all c 0) as [res|c' aff'].
      + destruct LP as (b & ix & a & e & old & E1 & E2 & E3 & E4 & E5 & ->).
        assert (Hix : In ix all) by (rewrite E1; apply in_elt).
        destruct (secondary_found ev WT P nobody (c_st c) ix r e old INV Hix (Act ix Hix E2) E3 Lr E4) as (q & o & R & E & _ & Pk & Lo).
        assert (Cl : clash tb (writable s) r o) by (right; exists ix; auto).
        destruct (s_ignore s) eqn:Ig.
        { split; [exact INV|]. split; [exact TO|]. split; [reflexivity|]. intros _. apply ins_ignore with q e o; auto. intros x. reflexivity. }
        destruct (on_dup s) eqn:Od.
        { apply (UPD old q e o); auto. intros PF. split; [exact R|]. right. split; [exact Rn|]. exists b, ix, a. split; [exact E1|].
          split; [exact E3|]. split; [exact E2|]. split; [exact E|]. intros ix' q' e' o' Hb U' W' R'.
          assert (Hix' : In ix' all) by (rewrite E1; apply in_or_app; left; exact Hb).
          exact (unfound_no_row ev WT P nobody (c_st c) ix' r q' e' o' INV Hix' U' (E5 ix' Hb W' U') (PF ix' q' Hix' U' W') (fun X => X) R'). }
        cbn in M. destruct (s_replace s) eqn:Rp; [discriminate|]. intros _. apply ins_dup with q e o; auto.
      + destruct LP as (-> & -> & Cl).
        destruct (insert_put c r p false ni I0 TO WR eq_refl Fp Cl Rn) as (I3 & R3 & T3).
        split; [exact I3|]. split; [intros X; rewrite T3; exact (TO X)|]. split; [intros _; exact T3|]. intros PF. apply ins_new; auto.
        intros q e o R [X|(ix & Hix & U & Wr & X)].
        * assert (q = p) by (rewrite <- (rows_pk ev WT _ _ _ _ K R); symmetry; exact X). congruence.
        * exact (unfound_no_row ev WT P nobody (c_st c) ix r q e o INV Hix U (Cl ix Hix Wr U) (PF ix q Hix U Wr) (fun X => X) R X).
    - apply orb_false_iff in M. destruct M as [M M3]. apply orb_false_iff in M. destruct M as [M1 M2]. apply negb_false_iff in M3.
      apply (REPL c false ni []); auto. intros x. reflexivity. }
  replace (negb (affect_pk tb s) && false) with false by (rewrite andb_false_r; reflexivity).
  destruct (get_primary ev (c_st c) p r (field_ids tb s)) as [| | |e old].
  - split; [exact INV|]. split; [exact TO|]. split; [reflexivity|]. intros _. apply ins_elsewhere; [exact PC|]. intros x. reflexivity.
  - apply NEW; apply PC.
  - apply NEW; apply PC.
  - destruct PC as (Fp & o & R & Se & Lo & Pk).
    assert (Cl : clash tb (writable s) r o) by (left; symmetry; exact (rows_pk ev WT _ _ _ _ K R)).
    destruct (s_ignore s) eqn:Ig.
    { split; [exact INV|]. split; [exact TO|]. split; [reflexivity|]. intros _. apply ins_ignore with p e o; auto. intros x. reflexivity. }
    destruct (on_dup s) eqn:Od.
    { apply (UPD old p e o); auto. intros _. split; [exact R|]. left. reflexivity. }
    destruct (s_replace s) eqn:Rp; [|intros _; apply ins_dup with p e o; auto].
    assert (Ag : agree all old o).
    { apply (agree_sees tb _ (field_ids tb s)); [exact WT|intros x Hx; exact Hx| |exact Se].
      pose proof (index_fields_incl tb s) as X. unfold affected in X. rewrite (not_on_dup Od) in X. exact X. }
    apply (REPL (remove_row ev c all p old false) true true [p]); auto.
    + rewrite remove_row_st. cbn zeta. eapply (inv_weaken ev P).
      * apply (inv_detach ev WT P Pu nobody (c_st c) all p e o old INV (fun _ X => X) Ag (fun _ _ X => X) R).
      * intros ix q' X. right. exact X.
      * intros ix q' [[]|X]. left. exact X.
    + intros q. rewrite remove_row_st. cbn zeta. apply rows_same, remove_indexes_rows.
    + right. split; [reflexivity|]. exists e, o. exact R.
Qed.
End Ins.
End Row.
