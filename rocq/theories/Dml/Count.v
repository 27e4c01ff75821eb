(* The number of rows a statement says it has added *)
From Verif.Dml Require Import Model Spec Base Inv Rows Update Insert Stmt.
Local Open Scope Z_scope.

Section MapC.
Context {K V : Type} (dec : forall a b : K, {a = b} + {a <> b}).
Lemma mget_in k v (m : list (K * V)) : mget dec k m = Some v -> In k (map fst m).
Proof.
  induction m as [|[k2 v2] m IH]; cbn; [discriminate|]. destruct (dec k k2) as [->|]; [left; reflexivity|]. intros X. right. exact (IH X).
Qed.
Lemma mget_none k (m : list (K * V)) : mget dec k m = None -> ~ In k (map fst m).
Proof.
  induction m as [|[k2 v2] m IH]; cbn; [auto|]. destruct (dec k k2) as [->|N]; [discriminate|]. intros X [Y|Y]; [congruence|exact (IH X Y)].
Qed.
Lemma mdel_absent k (m : list (K * V)) : ~ In k (map fst m) -> mdel dec k m = m.
Proof.
  induction m as [|[k2 v2] m IH]; cbn; [reflexivity|]. intros N. fold (mdel dec k m). destruct (dec k k2) as [->|]; [exfalso; apply N; left; reflexivity|].
  f_equal. apply IH. intros X. apply N. right. exact X.
Qed.
Lemma mdel_keys k (m : list (K * V)) x : In x (map fst (mdel dec k m)) -> In x (map fst m) /\ x <> k.
Proof.
  induction m as [|[k2 v2] m IH]; cbn; [intros []|]. fold (mdel dec k m). destruct (dec k k2) as [->|N]; cbn; intros X.
  - destruct (IH X). auto.
  - destruct X as [<-|X]; [split; [left; reflexivity|congruence]|]. destruct (IH X). auto.
Qed.
Lemma mdel_nodup k (m : list (K * V)) : NoDup (map fst m) -> NoDup (map fst (mdel dec k m)).
Proof.
  induction m as [|[k2 v2] m IH]; cbn; intros ND; [exact ND|]. fold (mdel dec k m). inversion ND; subst.
  destruct (dec k k2) as [->|N]; [auto|]. cbn. constructor; [|auto]. intros X. apply mdel_keys in X. tauto.
Qed.
Lemma mdel_length k v (m : list (K * V)) : NoDup (map fst m) -> mget dec k m = Some v -> Z.of_nat (length (mdel dec k m)) = Z.of_nat (length m) - 1.
Proof.
  induction m as [|[k2 v2] m IH]; cbn [map fst mget mdel filter]; intros ND; [discriminate|]. fold (mdel dec k m). inversion ND; subst.
  destruct (dec k k2) as [->|N]; intros X.
  - rewrite mdel_absent by assumption. cbn [length]. lia.
  - cbn [length]. rewrite Nat2Z.inj_succ, (IH H2 X). lia.
Qed.
Lemma mput_nodup k v (m : list (K * V)) : NoDup (map fst m) -> NoDup (map fst (mput dec k v m)).
Proof. intros ND. unfold mput. cbn. constructor; [intros X; apply mdel_keys in X; tauto|apply mdel_nodup; exact ND]. Qed.
Lemma mput_length k v (m : list (K * V)) : NoDup (map fst m) ->
  Z.of_nat (length (mput dec k v m)) = Z.of_nat (length m) + match mget dec k m with None => 1 | Some _ => 0 end.
Proof.
  intros ND. unfold mput. cbn [length]. rewrite Nat2Z.inj_succ. destruct (mget dec k m) as [v'|] eqn:E.
  - rewrite (mdel_length k v' m ND E). lia.
  - rewrite mdel_absent by (apply mget_none; exact E). lia.
Qed.
End MapC.

Definition nodup_rows (st : store) : Prop := NoDup (map fst (st_rows st)).
Definition nrows (st : store) : Z := Z.of_nat (length (st_rows st)).
(* the counter minus the rows *)
Definition bal (c : ctx) : Z := c_incr c - nrows (c_st c).

Lemma remove_row_count ev c ixs p r d : nodup_rows (c_st c) -> prow (c_st c) p <> None ->
  nodup_rows (c_st (remove_row ev c ixs p r d)) /\ bal (remove_row ev c ixs p r d) = if d then bal c else bal c - 1.
Proof.
  intros ND Pr. destruct (prow (c_st c) p) as [v|] eqn:E; [|congruence]. clear Pr. unfold nodup_rows, bal, nrows. rewrite remove_row_st. cbn zeta.
  change (c_incr (remove_row ev c ixs p r d)) with (c_incr c + -1).
  destruct d; cbn [remove_primary st_rows]; rewrite remove_indexes_rows.
  - split; [apply mdel_nodup; exact ND|]. unfold prow in E. rewrite (mdel_length cells_dec p v _ ND E). lia.
  - split; [exact ND|lia].
Qed.
Lemma put_row_count ev s c ixs p r a ni : nodup_rows (c_st c) ->
  nodup_rows (c_st (put_row ev s c ixs p r a ni)) /\
  bal (put_row ev s c ixs p r a ni) = bal c + (if ni then 1 else 0) - match prow (c_st c) p with None => 1 | Some _ => 0 end.
Proof.
  intros ND.
  assert (E : st_rows (c_st (put_row ev s c ixs p r a ni)) = mput cells_dec p (wts (e_tb ev) c, stored_row (e_tb ev) (option_map snd (prow (put_indexes s ixs (c_st c) r (wts (e_tb ev) c)) p)) r (if a then Some (update_field_ids (e_tb ev) s) else None)) (st_rows (c_st c))).
  { unfold put_row. destruct ni; cbn [incr with_st c_st put_primary st_rows]; rewrite put_indexes_rows; reflexivity. }
  assert (I1 : c_incr (put_row ev s c ixs p r a ni) = c_incr c + (if ni then 1 else 0)).
  { unfold put_row. destruct ni; cbn [incr with_st c_incr]; lia. }
  unfold nodup_rows, bal, nrows. rewrite E, I1. split; [apply mput_nodup; exact ND|].
  rewrite mput_length by exact ND. unfold prow. destruct (mget cells_dec p (st_rows (c_st c))); lia.
Qed.
Lemma found_prow ev st p t F e r : get_primary ev st p t F = Found e r -> exists sr, prow st p = Some (e, sr) /\ expired ev e = false.
Proof.
  unfold get_primary. destruct (e_fits ev p); [|discriminate]. cbn [negb]. destruct (prow st p) as [[e' sr]|]; [|discriminate].
  destruct (expired ev e') eqn:X; [discriminate|]. intros Y. injection Y as <- _. exists sr. auto.
Qed.
Lemma notfound_prow ev st p t F : get_primary ev st p t F = NotFound -> prow st p = None.
Proof.
  unfold get_primary. destruct (e_fits ev p); [|discriminate]. cbn [negb]. destruct (prow st p) as [[e' sr]|]; [|reflexivity].
  destruct (expired ev e'); discriminate.
Qed.
Lemma expired_prow ev st p t F : get_primary ev st p t F = Expired -> exists e sr, prow st p = Some (e, sr) /\ expired ev e = true.
Proof.
  unfold get_primary. destruct (e_fits ev p); [|discriminate]. cbn [negb]. destruct (prow st p) as [[e' sr]|]; [|discriminate].
  destruct (expired ev e') eqn:X; [|discriminate]. intros _. exists e', sr. auto.
Qed.

Definition kept (ev : env) (p : list cell) (st st' : store) : Prop :=
  (prow st p = None -> prow st' p = None) /\
  (forall e r, prow st p = Some (e, r) -> expired ev e = true -> prow st' p = Some (e, r)).

Lemma delete_row_count ev s c ixs t c' n p0 : nodup_rows (c_st c) -> delete_row ev s c ixs t = Some (c', n) ->
  nodup_rows (c_st c') /\ bal c' = bal c /\ kept ev p0 (c_st c) (c_st c').
Proof.
  intros ND. unfold delete_row. destruct (encode_pk (e_tb ev) t) as [p|]; [|discriminate].
  assert (Same : c' = c -> nodup_rows (c_st c') /\ bal c' = bal c /\ kept ev p0 (c_st c) (c_st c')).
  { intros ->. split; [exact ND|]. split; [reflexivity|]. split; auto. }
  destruct (get_primary ev (c_st c) p t (field_ids (e_tb ev) s)) as [| | |e r] eqn:G; try (intros X; injection X as <- _; auto).
  destruct (satisfy s r); intros X; injection X as <- _; [|auto]. clear Same.
  destruct (found_prow _ _ _ _ _ _ _ G) as (sr & Pr & Ex).
  destruct (remove_row_count ev c ixs p r true ND) as [Z1 Z2]; [congruence|]. split; [exact Z1|]. split; [exact Z2|].
  unfold kept, prow. rewrite remove_row_st. cbn zeta. cbn [remove_primary st_rows]. rewrite remove_indexes_rows. rewrite mget_del.
  split; [intros ->; destruct (cells_dec p0 p); reflexivity|]. intros e0 r0 E0 X0. destruct (cells_dec p0 p) as [->|]; [|exact E0].
  unfold prow in Pr. rewrite Pr in E0. injection E0 as -> ->. congruence.
Qed.
Lemma loop_count ev s al uk isu r ixs c aff c' aff' p0 : nodup_rows (c_st c) -> uniq_loop ev s al uk isu r ixs c aff = Go c' aff' ->
  nodup_rows (c_st c') /\ bal c' = bal c /\ kept ev p0 (c_st c) (c_st c').
Proof.
  revert c aff. induction ixs as [|ix ixs IH]; intros c aff ND; cbn [uniq_loop].
  - intros X. injection X as <- _. split; [exact ND|]. split; [reflexivity|]. split; auto.
  - destruct (writable s ix && ix_uniq ix); [|apply IH; exact ND].
    destruct (get_secondary ev (c_st c) ix r) as [| | |e old]; try (apply IH; exact ND).
    destruct isu; [discriminate|]. destruct (s_ignore s); [discriminate|]. destruct (on_dup s); [discriminate|]. destruct (s_replace s); [|discriminate].
    destruct (delete_row ev s c al old) as [[c1 n1]|] eqn:E; [|discriminate]. intros X.
    destruct (delete_row_count _ _ _ _ _ _ _ p0 ND E) as (Z1 & Z2 & Z3 & Z4). destruct (IH c1 _ Z1 X) as (Y1 & Y2 & Y3 & Y4).
    split; [exact Y1|]. split; [congruence|]. split; auto.
Qed.

Section Row.
Variable ev : env.
Notation tb := (e_tb ev).
Variable s : stmt.
Hypothesis WT : wf_table tb.

Lemma update_row_count vals c t c' n : nodup_rows (c_st c) -> s_updates s <> [] ->
  update_row ev s vals c t = Some (c', n) -> nodup_rows (c_st c') /\ bal c' = bal c.
Proof.
  intros ND Ne. unfold update_row. destruct (encode_pk tb t) as [p|] eqn:En; [|discriminate].
  destruct (get_primary ev (c_st c) p (key_rec tb p) (field_ids tb s)) as [| | |e r] eqn:G; try (intros X; injection X as <- _; auto).
  destruct (satisfy s r); [|intros X; injection X as <- _; auto].
  match goal with |- context [remove_row ev ?x (affected tb s) p r] => set (c1 := x) end.
  assert (S1 : c_st c1 = c_st c) by (unfold c1; destruct (s_keep s && (0 <? c_ttl c) && _); reflexivity).
  assert (B1 : bal c1 = bal c) by (unfold bal, c1; destruct (s_keep s && (0 <? c_ttl c) && _); reflexivity).
  clearbody c1. destruct (found_prow _ _ _ _ _ _ _ G) as (sr & Pr & Ex).
  destruct (remove_row_count ev c1 (affected tb s) p r (affect_pk tb s)) as [N2 B2]; [rewrite S1; exact ND|rewrite S1; congruence|].
  assert (P2 : affect_pk tb s = false -> prow (c_st (remove_row ev c1 (affected tb s) p r (affect_pk tb s))) p <> None).
  { intros Af. rewrite remove_row_st, Af. cbn zeta. unfold prow. rewrite remove_indexes_rows, S1. fold (prow (c_st c) p). congruence. }
  set (c2 := remove_row ev c1 (affected tb s) p r (affect_pk tb s)) in *. clearbody c2.
  unfold insert_row_gen. set (r' := apply_updates s (slot_row s r) vals r).
  destruct (encode_pk tb r') as [p'|] eqn:En'; [|discriminate]. cbn [negb orb].
  assert (FIN : forall a ni c3 n3, match uniq_loop ev s (affected tb s) (fun _ _ => None) true r' (affected tb s) c2 0 with
      | Stop res => res | Go c' aff' => Some (put_row ev s c' (affected tb s) p' r' a ni, aff' + 1) end = Some (c3, n3) ->
      nodup_rows (c_st c3) /\ bal c3 = bal c2 + (if ni then 1 else 0) - match prow (c_st c2) p' with None => 1 | Some _ => 0 end).
  { intros a ni c3 n3. pose proof (loop_plain ev s (affected tb s) (fun _ _ => None) true r' (affected tb s) c2 0 eq_refl) as LP.
    destruct (uniq_loop ev s (affected tb s) (fun _ _ => None) true r' (affected tb s) c2 0) as [res|c4 a4].
    - destruct LP as (b & ix & a0 & e1 & old & _ & _ & _ & _ & _ & ->). discriminate.
    - destruct LP as (-> & _ & _). intros X. injection X as <- _. exact (put_row_count ev s c2 (affected tb s) p' r' a ni N2). }
  destruct (affect_pk tb s) eqn:Af.
  - destruct (get_primary ev (c_st c2) p' r' (field_ids tb s)) as [| | |e2 old2] eqn:G2.
    + intros X. injection X as <- _. split; [exact N2|congruence].
    + match goal with |- match ?x with _ => _ end = _ -> _ => destruct x as [[c3 n3]|] eqn:E; [|discriminate] end.
      intros X. injection X as <- _. destruct (FIN _ _ _ _ E) as [F1 F2]. split; [exact F1|]. destruct (expired_prow _ _ _ _ _ G2) as (e3 & sr3 & P3 & _).
      rewrite P3 in F2. lia.
    + match goal with |- match ?x with _ => _ end = _ -> _ => destruct x as [[c3 n3]|] eqn:E; [|discriminate] end.
      intros X. injection X as <- _. destruct (FIN _ _ _ _ E) as [F1 F2]. split; [exact F1|]. rewrite (notfound_prow _ _ _ _ _ G2) in F2. lia.
    + destruct (s_ignore s); [|discriminate]. intros X. injection X as <- _. split; [exact N2|congruence].
  - match goal with |- match ?x with _ => _ end = _ -> _ => destruct x as [[c3 n3]|] eqn:E; [|discriminate] end.
    intros X. injection X as <- _. destruct (FIN _ _ _ _ E) as [F1 F2]. split; [exact F1|].
    assert (p' = p).
    { apply encode_pk_some in En'. destruct En' as [<- _].
      unfold get_primary in G. destruct (negb (e_fits ev p)); [discriminate|]. rewrite Pr, Ex in G. injection G as <-.
      rewrite nonempty_affect in Af by exact Ne. apply encode_pk_some in En. destruct En as [Ep _].
      transitivity (pk_of tb (key_rec tb p)); [|apply pk_key_rec; [exact WT|rewrite <- Ep; apply pk_of_length]].
      apply proj_ext. intros f Hf. unfold r'. rewrite apply_out by exact (touches_false _ _ _ Af Hf).
      apply fget_read_row_out. intros X. apply field_ids_nonpk, In_nonpk in X. tauto. }
    subst p'. destruct (prow (c_st c2) p); [lia|]. exfalso. exact (P2 eq_refl eq_refl).
Qed.

Variable P : index -> list cell -> Prop.
Hypothesis Pact : forall ix q, In ix (tb_indexes tb) -> P ix q -> writable_state (ix_state ix) = true.
Hypothesis Pu : forall ix q q', ix_uniq ix = true -> P ix q -> P ix q'.
Hypothesis Act : forall ix, In ix (tb_indexes tb) -> writable s ix = true -> removable ix = true.
Hypothesis Nd : s_node s = InsertNode.

Lemma insert_row_count c r c' n : nodup_rows (c_st c) -> Inv ev P nobody (c_st c) -> wf_row tb r ->
  insert_row ev s c r = Some (c', n) -> nodup_rows (c_st c') /\ bal c' = bal c.
Proof.
  intros ND INV (Lr & Nn & _). unfold insert_row, insert_row_gen. set (p := pk_of tb r) in *.
  assert (En : encode_pk tb r = Some p) by (apply encode_pk_some; auto). rewrite En. cbn [negb orb].
  set (uk := fun (c : ctx) (old : rec) => match update_row ev s r c old with Some (c', n) => Some (c', if n =? 1 then 2 else n) | None => None end).
  assert (UK : forall old c3 n3, on_dup s = true -> uk c old = Some (c3, n3) -> nodup_rows (c_st c3) /\ bal c3 = bal c).
  { intros old c3 n3 Od. unfold uk. destruct (update_row ev s r c old) as [[c4 n4]|] eqn:U; [|discriminate]. intros X. injection X as <- _.
    apply (update_row_count r c old c4 n4 ND); [|exact U]. exact (on_dup_updates s Nd Od). }
  assert (FIN : forall (a ni : bool) c3 n3, (if ni then prow (c_st c) p = None else exists e sr, prow (c_st c) p = Some (e, sr) /\ expired ev e = true) ->
     match uniq_loop ev s (tb_indexes tb) uk false r (tb_indexes tb) c 0 with
      | Stop res => res | Go c' aff' => Some (put_row ev s c' (tb_indexes tb) p r a ni, aff' + 1) end = Some (c3, n3) ->
      nodup_rows (c_st c3) /\ bal c3 = bal c).
  { intros a ni c3 n3 Old. destruct (uniq_loop ev s (tb_indexes tb) uk false r (tb_indexes tb) c 0) as [res|c4 a4] eqn:E.
    - destruct (s_ignore s || on_dup s || negb (s_replace s)) eqn:M.
      + pose proof (loop_plain ev s (tb_indexes tb) uk false r (tb_indexes tb) c 0 M) as LP. rewrite E in LP.
        destruct LP as (b & ix & a0 & e1 & old & _ & _ & _ & _ & _ & ->). destruct (s_ignore s).
        * intros X. injection X as <- _. auto.
        * destruct (on_dup s) eqn:Od; [|discriminate]. apply UK. reflexivity.
      + apply orb_false_iff in M. destruct M as [M M3]. apply orb_false_iff in M. destruct M as [M1 M2]. apply negb_false_iff in M3.
        assert (HEX : exists c' ds, uniq_loop ev s (tb_indexes tb) uk false r (tb_indexes tb) c 0 = Go c' ds).
        { clear E. assert (R0 : rows ev (c_st c) p = None).
          { unfold rows. destruct (e_fits ev p); [|reflexivity]. destruct ni; [rewrite Old; reflexivity|]. destruct Old as (e & sr & -> & ->). reflexivity. }
          destruct (loop_replace ev s P WT Pu Act uk r p Nd M1 (not_on_dup s Nd M2) M3 Lr (tb_indexes tb) (fun ix q' => In ix (tb_indexes tb) /\ q' = p) c 0 (fun _ X => X)
             (inv_absent ev P (c_st c) p (tb_indexes tb) INV R0) (fun _ _ X => proj2 X) (fun _ X => conj X eq_refl)) as (c9 & ds & E1 & _). eauto. }
        destruct HEX as (? & ? & HEX). rewrite E in HEX. discriminate.
    - intros X. injection X as <- _. destruct (loop_count ev s _ uk false r _ c 0 c4 a4 p ND E) as (Z1 & Z2 & Z3 & Z4).
      destruct (put_row_count ev s c4 (tb_indexes tb) p r a ni Z1) as [Y1 Y2]. split; [exact Y1|]. destruct ni.
      + rewrite (Z3 Old) in Y2. lia.
      + destruct Old as (e & sr & O1 & O2). rewrite (Z4 _ _ O1 O2) in Y2. lia. }
  destruct (get_primary ev (c_st c) p r (field_ids tb s)) as [| | |e old] eqn:G.
  - intros X. injection X as <- _. auto.
  - apply FIN. exact (expired_prow _ _ _ _ _ G).
  - apply FIN. exact (notfound_prow _ _ _ _ _ G).
  - destruct (s_ignore s) eqn:Ig; [intros X; injection X as <- _; auto|]. destruct (on_dup s) eqn:Od; [exact (UK old c' n eq_refl)|].
    destruct (s_replace s) eqn:Rp; [|discriminate].
    pose proof (primary_cases ev s WT (c_st c) p r eq_refl Lr (i_keys _ _ _ _ INV)) as PC. rewrite G in PC. destruct PC as (Fp & o & R & Se & Lo & Pk).
    assert (Ag : agree (tb_indexes tb) old o).
    { apply (agree_sees tb _ (field_ids tb s)); [exact WT|intros x Hx; exact Hx| |exact Se].
      pose proof (index_fields_incl tb s) as X. unfold affected in X. rewrite (not_on_dup s Nd Od) in X. exact X. }
    destruct (found_prow _ _ _ _ _ _ _ G) as (sr & Pr & Ex).
    destruct (remove_row_count ev c (tb_indexes tb) p old false ND) as [N1 B1]; [congruence|].
    set (c1 := remove_row ev c (tb_indexes tb) p old false) in *.
    assert (S1 : c_st c1 = remove_indexes (tb_indexes tb) (c_st c) old) by (unfold c1; rewrite remove_row_st; reflexivity).
    assert (I1 : Inv ev P (fun ix q' => In ix (tb_indexes tb) /\ q' = p) (c_st c1)).
    { rewrite S1. eapply (inv_weaken ev P).
      - apply (inv_detach ev WT P Pu nobody (c_st c) (tb_indexes tb) p e o old INV (fun _ X => X) Ag (fun _ _ X => X) R).
      - intros ix q' X. right. exact X.
      - intros ix q' [[]|X]. left. exact X. }
    destruct (loop_replace ev s P WT Pu Act uk r p Nd Ig (not_on_dup s Nd Od) Rp Lr (tb_indexes tb) _ c1 1 (fun _ X => X) I1 (fun _ _ X => proj2 X) (fun _ X => conj X eq_refl))
       as (c2 & ds & E1 & _ & _ & _ & E5 & _ & E7 & _).
    rewrite E1. intros X. injection X as <- _.
    destruct (loop_count ev s _ uk false r _ c1 1 c2 _ p N1 E1) as (Z1 & Z2 & _).
    destruct (put_row_count ev s c2 (tb_indexes tb) p r true true Z1) as [Y1 Y2]. split; [exact Y1|].
    assert (P2 : prow (c_st c2) p <> None).
    { assert (R2 : rows ev (c_st c2) p = Some (e, o)).
      { rewrite E7. destruct (in_dec cells_dec p ds); [contradiction|]. rewrite S1. rewrite <- R. apply rows_same, remove_indexes_rows. }
      destruct (rows_info ev _ _ _ _ R2) as (_ & _ & sr2 & P2 & _). congruence. }
    match goal with |- ?x = _ => change x with (bal (put_row ev s c2 (tb_indexes tb) p r true true)) end.
    rewrite Y2. destruct (prow (c_st c2) p); [lia|congruence].
Qed.
End Row.

Lemma insert_count ev s st rs c n : wf_table (e_tb ev) -> consistent ev st -> nodup_rows st -> wf_stmt (e_tb ev) s -> wf_time ev s -> wf_insert ev s ->
  Forall (wf_row (e_tb ev)) rs -> run_insert ev s st rs = Some (c, n) -> nrows (c_st c) = nrows st + c_incr c /\ nodup_rows (c_st c).
Proof.
  intros WT CS ND WS Wt WI F. pose proof WI as (Nd & Dd & Kp & Od). apply consistent_inv in CS. unfold run_insert.
  assert (Pact : forall ix q, In ix (tb_indexes (e_tb ev)) -> Pst ix q -> writable_state (ix_state ix) = true) by (intros ix q _ X; exact X).
  assert (Pu : forall ix (q q' : list cell), ix_uniq ix = true -> Pst ix q -> Pst ix q') by (intros ix q q' _ X; exact X).
  assert (G : forall rs c0 n0, Forall (wf_row (e_tb ev)) rs -> Inv ev Pst nobody (c_st c0) -> ttl_ok ev c0 -> nodup_rows (c_st c0) ->
     each (insert_row ev s) c0 rs n0 = Some (c, n) -> nodup_rows (c_st c) /\ bal c = bal c0).
  { clear F. induction rs0 as [|r rs0 IH]; intros c0 n0 F I0 T0 N0; cbn [each].
    - intros X. injection X as <- _. auto.
    - inversion F; subst.
      pose proof (insert_row_correct ev s Pst WT WS Wt Pact Pu (act ev s Dd) Nd (fun X => proj1 (Od X)) (fun X => proj1 (proj2 (Od X))) (fun X => proj2 (proj2 (Od X))) c0 r I0 T0 H1) as X.
      destruct (insert_row ev s c0 r) as [[c1 k]|] eqn:E; [|discriminate]. destruct X as (X1 & X2 & _ & _).
      destruct (insert_row_count ev s WT Pst Pu (act ev s Dd) Nd c0 r c1 k N0 I0 H1 E) as [N1 B1].
      intros Y. destruct (IH c1 (n0 + k) H2 X1 X2 N1 Y) as [N2 B2]. split; [exact N2|congruence]. }
  intros X. destruct (G rs (start ev s st) 0 F CS (start_ok ev s st Wt) ND X) as [N1 B1]. unfold bal in B1. cbn [start c_st c_incr] in B1.
  split; [lia|exact N1].
Qed.
Lemma delete_count ev s st ps c n : nodup_rows st -> run_delete ev s st ps = Some (c, n) -> nrows (c_st c) = nrows st + c_incr c /\ nodup_rows (c_st c).
Proof.
  intros ND. unfold run_delete.
  assert (G : forall ps c0 n0, nodup_rows (c_st c0) -> each (fun c p => delete_row ev s c (tb_indexes (e_tb ev)) (key_rec (e_tb ev) p)) c0 ps n0 = Some (c, n) -> nodup_rows (c_st c) /\ bal c = bal c0).
  { induction ps0 as [|p ps0 IH]; intros c0 n0 N0; cbn [each].
    - intros X. injection X as <- _. auto.
    - destruct (delete_row ev s c0 _ _) as [[c1 k]|] eqn:E; [|discriminate]. destruct (delete_row_count _ _ _ _ _ _ _ p N0 E) as (N1 & B1 & _).
      intros X. destruct (IH c1 _ N1 X) as [N2 B2]. split; [exact N2|congruence]. }
  intros X. destruct (G ps (start ev s st) 0 ND X) as [N1 B1]. unfold bal in B1. cbn [start c_st c_incr] in B1. split; [lia|exact N1].
Qed.
