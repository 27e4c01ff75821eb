(* DELETE and UPDATE through the managers *)
From Verif.Dml Require Import Base Inv Rows Update.
From Verif.Global Require Import Model Spec Core Batch Stmts Ignore.
Local Open Scope Z_scope.

Section UD.
Variable tb : table.
Hypothesis GT : good_table tb.
Notation ev := (genv tb).
Notation pk := (pk_of tb).
Notation R := (rows ev).
Notation all := (tb_indexes tb).
Notation good := (good_store tb).
Notation pks := (Core.pks tb).
Notation with_pk := (Core.with_pk tb).
Notation clash := (Spec.clash tb every).
Notation WT := (WT tb GT).
Notation Tt := (Tt tb GT).
Notation Tc := (Tc tb GT).
Notation Nx := (Nx tb GT).

(* ---------------- what SET makes of a row ---------------- *)
Lemma upd_set s o v : upd s o v = set_row s o v.
Proof. symmetry. apply set_row_model. Qed.
Lemma upd_wf s o v : wf_stmt tb s -> wf_row tb o -> wf_row tb (upd s o v).
Proof.
  intros WS (L & Np & Nd). unfold upd. split; [rewrite apply_length; exact L|]. split.
  - destruct (existsb isnull (pk (apply_updates s (slot_row s o) v o))) eqn:X; [|reflexivity]. exfalso. apply existsb_exists in X. destruct X as (c & Hc & N).
    apply in_map_iff in Hc. destruct Hc as (f & <- & Hf). destruct WT as (_ & Fl & _). rewrite Forall_forall in Fl.
    destruct (fget (apply_updates s (slot_row s o) v o) f) eqn:E; [discriminate|].
    apply (apply_null s tb) in E; [|exact WS|rewrite L; apply Fl; exact Hf]. destruct E as [E|[_ E]]; [|contradiction].
    assert (existsb isnull (pk o) = true); [|congruence]. apply existsb_exists. exists (fget o f). split; [apply in_map; exact Hf|rewrite E; reflexivity].
  - intros f Lf E. apply (apply_null s tb) in E; [|exact WS|lia]. destruct E as [E|[E _]]; auto.
Qed.
Lemma upd_keep s o v fs : touches s fs = false -> proj (upd s o v) fs = proj o fs.
Proof. intros X. unfold proj. apply map_ext_in. intros f Hf. apply apply_out. exact (touches_false s fs f X Hf). Qed.

Section Chosen.
Variable s : stmt.
Variable st : store.
Hypothesis G : good st.
Variable ps : list (list cell).
Variable olds : list rec.
Hypothesis Hold : forall o, In o olds <-> In (pk o) ps /\ (exists e, R st (pk o) = Some (e, o)) /\ satisfy s o = true.
Hypothesis Node : upd_or_del s = true.
Lemma satisfy_wanted o : satisfy s o = wanted s o.
Proof. unfold satisfy, wanted. rewrite Node. rewrite andb_true_r. reflexivity. Qed.
Lemma chosen_iff q o : chosen s (R st) ps q o <-> In o olds /\ pk o = q.
Proof.
  unfold chosen. rewrite Hold, satisfy_wanted. split.
  - intros (A & (e & B) & C). pose proof (R_pk tb WT st G _ _ _ B) as P. subst q. split; [|reflexivity]. split; [exact A|]. split; [exists e; exact B|exact C].
  - intros ((A & B & C) & <-). auto.
Qed.
Lemma olds_rows d : In d olds -> R st (pk d) = Some (0, d).
Proof. intros X. apply Hold in X. destruct X as (_ & (e & X) & _). exact (R_self tb WT Tt st G _ _ _ X). Qed.
Lemma olds_many : NoDup (pks olds) -> how_many s (R st) ps (Z.of_nat (length olds)).
Proof.
  intros ND. exists (pks olds). split; [exact ND|]. split; [|unfold Core.pks; rewrite map_length; reflexivity]. intros q. split.
  - intros X. apply in_map_iff in X. destruct X as (o & E & X). exists o. apply chosen_iff. auto.
  - intros (o & X). apply chosen_iff in X. destruct X as [X <-]. apply in_map. exact X.
Qed.
End Chosen.

(* ---------------- DELETE ---------------- *)
Lemma delete_facts s st ps : good st -> Forall (wf_key tb) ps -> s_node s = DeleteNode ->
  good (fst (run_gdelete tb s st ps)) /\ deleted s (R st) ps (R (fst (run_gdelete tb s st ps))) /\
  how_many s (R st) ps (snd (run_gdelete tb s st ps)).
Proof.
  intros G WP Nd. assert (Ud : upd_or_del s = true) by (unfold upd_or_del; rewrite Nd; reflexivity). unfold run_gdelete.
  pose proof (del_primaries_index tb (satisfy s) true ps st) as Ix1.
  pose proof (del_primaries_spec tb WT Tt (satisfy s) true ps st (proj1 G)) as X.
  destruct (del_primaries tb (satisfy s) true st ps) as [st1 olds]. cbn [fst snd] in *.
  destruct X as (O1 & ND & R1). { eapply Forall_impl; [|exact WP]. intros p Wp. apply Wp. } { discriminate. }
  pose proof (olds_rows s st G ps olds O1) as RD.
  destruct (dels_all tb WT Tt st olds (order all) st1 G (fun ix X => proj1 (order_In all ix) X) (order_NoDup all Nx) RD (pidx_eq _ _ Ix1)) as (Y1 & Y2 & Y3).
  set (st2 := fold_left (fun st ix => fold_left (del_index tb ix) olds st) (order all) st1) in *.
  assert (Ro : forall q, R st2 q = new_rows tb olds [] st q).
  { intros q. rewrite (R_same tb st2 st1 Y1), R1. reflexivity. }
  split; [|split].
  - apply (final_good tb WT Tt st st2 olds [] all G RD (Forall_nil _) (NoDup_nil _) (incl_refl all) Ro); try (intros; exfalso; tauto).
    intros ix k v Hix Hk. rewrite (Y2 ix k v (proj2 (order_In all ix) Hix) Hk), (pidx_eq _ _ Ix1). unfold dml_en. split.
    + intros [A B]. right. split; [intros (r & [] & _)|auto].
    + intros [(r & [] & _)|(_ & A & B)]. auto.
  - intros q e r. rewrite Ro. unfold new_rows. cbn [Core.with_pk find]. rewrite (chosen_iff s st G ps olds O1 Ud q r).
    destruct (in_dec cells_dec q (pks olds)) as [I1|I1].
    + split; [discriminate|]. intros [A B]. exfalso. apply B. apply in_map_iff in I1. destruct I1 as (o & Eo & I1). pose proof (RD o I1) as Z. rewrite Eo, A in Z. injection Z as _ <-. auto.
    + split; [|tauto]. intros A. split; [exact A|]. intros [B <-]. apply I1. apply in_map. exact B.
  - exact (olds_many s st G ps olds O1 Ud ND).
Qed.

(* ---------------- UPDATE ---------------- *)
Lemma affected_cases s : s_updates s <> [] ->
  incl (affected tb s) all /\ NoDup (affected tb s) /\
  forall ix, In ix all -> ~ In ix (affected tb s) -> affect_pk tb s = false /\ touches s (ix_fields ix) = false.
Proof.
  intros Ne. unfold affected. rewrite Tt, orb_false_r. destruct (s_updates s) eqn:E; [congruence|]. clear E Ne. destruct (affect_pk tb s).
  - split; [apply incl_refl|]. split; [exact Nx|]. intros ix A B. contradiction.
  - split; [intros ix X; apply filter_In in X; tauto|]. split; [apply NoDup_filter; exact Nx|]. intros ix A B. split; [reflexivity|].
    destruct (touches s (ix_fields ix)) eqn:T; [|reflexivity]. exfalso. apply B. apply filter_In. auto.
Qed.
Lemma gupdate_eq s st ps : run_gupdate tb s st ps =
  let '(st1, olds) := del_primaries tb (satisfy s) (affect_pk tb s) st ps in
  let st2 := fold_left (fun st ix => fold_left (del_index tb ix) olds st) (order (affected tb s)) st1 in
  let news := map (fun o => upd s o []) olds in
  if batch_ok tb [] news then
    match ofold (ins_primary tb (affect_pk tb s)) news st2 with
    | None => None
    | Some st3 => match ofold (fun st ix => ofold (ins_index tb ix) news st) (order (affected tb s)) st3 with
                  | None => None | Some st4 => Some (st4, Z.of_nat (length news)) end
    end
  else None.
Proof.
  unfold run_gupdate. destruct (del_primaries tb (satisfy s) (affect_pk tb s) st ps) as [st1 [|o olds]]; [|reflexivity].
  cbn [map batch_ok ofold length]. set (l := order (affected tb s)). set (st2 := fold_left _ l st1). clearbody st2. clearbody l.
  assert (X : ofold (fun (st : store) (ix : index) => Some st) l st2 = Some st2) by (induction l as [|i l IH]; cbn [ofold]; auto).
  rewrite X. reflexivity.
Qed.

Lemma update_core s st ps : good st -> Forall (wf_key tb) ps -> NoDup ps -> wf_stmt tb s -> s_updates s <> [] ->
  let olds := snd (del_primaries tb (satisfy s) (affect_pk tb s) st ps) in
  let news := map (fun o => upd s o []) olds in
  (forall o, In o olds <-> In (pk o) ps /\ (exists e, R st (pk o) = Some (e, o)) /\ satisfy s o = true) /\
  NoDup (pks olds) /\
  match run_gupdate tb s st ps with
  | Some (st', n) => good st' /\ apart tb news /\ clear_of tb st olds news /\ (forall q, R st' q = new_rows tb olds news st q) /\ n = Z.of_nat (length olds)
  | None => ~ (apart tb news /\ clear_of tb st olds news)
  end.
Proof.
  intros G WP NDp WS Ne. rewrite gupdate_eq. cbv zeta.
  pose proof (del_primaries_index tb (satisfy s) (affect_pk tb s) ps st) as Ix1.
  pose proof (del_primaries_spec tb WT Tt (satisfy s) (affect_pk tb s) ps st (proj1 G)) as X.
  destruct (del_primaries tb (satisfy s) (affect_pk tb s) st ps) as [st1 olds]. cbn [fst snd] in *.
  destruct X as (O1 & ND & R1). { eapply Forall_impl; [|exact WP]. intros p Wp. apply Wp. } { intros _. exact NDp. }
  split; [exact O1|]. split; [exact ND|].
  pose proof (olds_rows s st G ps olds O1) as RD.
  destruct (affected_cases s Ne) as (IncA & NDA & Un0).
  destruct (dels_all tb WT Tt st olds (order (affected tb s)) st1 G (fun ix X => IncA ix (proj1 (order_In _ ix) X)) (order_NoDup _ NDA) RD (pidx_eq _ _ Ix1)) as (Y1 & Y2 & Y3).
  set (st2 := fold_left (fun st ix => fold_left (del_index tb ix) olds st) (order (affected tb s)) st1) in *.
  set (news := map (fun o => upd s o []) olds).
  assert (WN : Forall (wf_row tb) news).
  { apply Forall_forall. intros r Hr. apply in_map_iff in Hr. destruct Hr as (o & <- & Ho). apply upd_wf; [exact WS|]. exact (R_wf tb WT st G _ _ _ (RD o Ho)). }
  assert (SamePk : affect_pk tb s = false -> pks news = pks olds).
  { intros A. rewrite nonempty_affect in A by exact Ne. unfold news, Core.pks. rewrite map_map. apply map_ext. intros o. exact (upd_keep s o [] (tb_pk tb) A). }
  assert (E2 : forall ix k v, In ix (affected tb s) -> id_of k = ix_id ix -> (pidx st2 k = Some v <-> ~ keyin ix k olds /\ pidx st k = Some v)).
  { intros ix k v Hix Hk. rewrite (Y2 ix k v (proj2 (order_In _ ix) Hix) Hk), (pidx_eq _ _ Ix1). reflexivity. }
  (* an entry left over belongs to a row that stays *)
  assert (Left : forall ix r e v, In ix (affected tb s) -> ix_uniq ix = true -> pidx st2 (rec_key ix r) = Some (e, v) ->
            exists o, R st (pk o) = Some (0, o) /\ ~ In (pk o) (pks olds) /\ proj r (ix_fields ix) = proj o (ix_fields ix)).
  { intros ix r e v Hix U X. apply (E2 ix (rec_key ix r) _ Hix eq_refl) in X. destruct X as [Nk X].
    assert (X' : pidx st (ix_id ix, proj r (ix_fields ix), []) = Some (e, v)) by (unfold rec_key in X; rewrite U in X; exact X).
    destruct (entry_sound tb WT Tt st G ix _ _ _ _ (IncA ix Hix) X' (fun _ => eq_refl)) as (o & Ro & Ko & _); [congruence|].
    assert (Po : proj r (ix_fields ix) = proj o (ix_fields ix)) by (unfold rec_key in Ko; injection Ko as Ko _; auto).
    exists o. split; [exact Ro|]. split; [|exact Po]. intros I1. apply in_map_iff in I1. destruct I1 as (d & Ed & I1). apply Nk. exists d. split; [exact I1|].
    pose proof (RD d I1) as Z. rewrite Ed, Ro in Z. injection Z as <-. apply (uniq_key ix); assumption. }
  destruct (batch_ok tb [] news) eqn:B; [|intros [Ap _]; apply (batch_apart tb GT) in Ap; congruence].
  apply (batch_apart tb GT) in B. assert (NDN : NoDup (pks news)) by (apply (apart_iff tb); exact B).
  pose proof (ins_primaries_spec tb WT Tt Tc (affect_pk tb s) news st2 WN (fun _ => NDN)) as P.
  assert (R2 : forall q, R st2 q = R st1 q) by (apply R_same; exact Y1).
  destruct (ofold (ins_primary tb (affect_pk tb s)) news st2) as [st3|] eqn:E3.
  - destruct P as (_ & P2 & P3). pose proof (pidx_eq _ _ (ins_primaries_index tb _ _ _ _ E3)) as Ix3.
    assert (Fr : forall r, In r news -> In (pk r) (pks olds) \/ R st (pk r) = None).
    { intros r Hr. destruct (affect_pk tb s) eqn:A.
      - specialize (P2 eq_refl r Hr). rewrite R2, R1 in P2. destruct (in_dec cells_dec (pk r) (pks olds)); auto.
      - left. rewrite <- (SamePk eq_refl). apply in_map. exact Hr. }
    pose proof (inss_all tb WT Tt news (order (affected tb s)) st3 (fun ix X => IncA ix (proj1 (order_In _ ix) X)) (order_NoDup _ NDA)) as Q.
    destruct (ofold (fun st ix => ofold (ins_index tb ix) news st) (order (affected tb s)) st3) as [st4|].
    + destruct Q as (Q1 & Q2 & Q3 & Q4).
      assert (Ro : forall q, R st4 q = new_rows tb olds news st q).
      { intros q. rewrite (R_same tb st4 st3 Q1), P3. unfold new_rows. destruct (with_pk news q) as [r|] eqn:E; [reflexivity|]. rewrite R2, R1.
        destruct (affect_pk tb s); [reflexivity|]. apply with_pk_none in E. rewrite (SamePk eq_refl) in E. destruct (in_dec cells_dec q (pks olds)); [contradiction|reflexivity]. }
      assert (Uq : forall ix r q e o, In ix all -> ix_uniq ix = true -> In r news -> R st q = Some (e, o) -> ~ In q (pks olds) -> proj r (ix_fields ix) <> proj o (ix_fields ix)).
      { intros ix r q e o Hix U Hr Ro' Nq E. destruct (in_dec index_dec ix (affected tb s)) as [I1|I1].
        - destruct (Q2 ix (proj2 (order_In _ ix) I1) U) as [_ Z]. specialize (Z r Hr). rewrite Ix3 in Z.
          assert (Z' : pidx st2 (rec_key ix r) = Some (0, rec_val ix o)); [|congruence].
          apply (E2 ix (rec_key ix r) _ I1 eq_refl). apply (uniq_key ix) in E; [|exact U]. rewrite E. split; [|exact (entry_row tb Tt st G ix q e o Hix Ro')].
          intros (d & Hd & Ed). apply Nq. destruct (key_row tb WT Tt st G ix q e o (pk d) 0 d Hix Ro' (RD d Hd) Ed) as [_ ->]. apply in_map. exact Hd.
        - destruct (Un0 ix Hix I1) as [_ Tf]. apply in_map_iff in Hr. destruct Hr as (d & <- & Hd). rewrite (upd_keep s d [] _ Tf) in E.
          destruct (uniq_row tb WT Tt st G ix _ _ _ _ _ _ Hix U (RD d Hd) Ro' E) as [_ <-]. apply Nq. apply in_map. exact Hd. }
      split; [|split; [exact B|split; [|split; [exact Ro|unfold news; rewrite map_length; reflexivity]]]].
      * assert (Same : forall ix d, In ix all -> ~ In ix (affected tb s) -> pk (upd s d []) = pk d /\ rec_key ix (upd s d []) = rec_key ix d /\ rec_val ix (upd s d []) = rec_val ix d).
        { intros ix d Hix I1. destruct (Un0 ix Hix I1) as [Af Tf]. rewrite nonempty_affect in Af by exact Ne.
          assert (Er : proj (upd s d []) (ix_rest ix) = proj d (ix_rest ix)).
          { unfold proj. apply map_ext_in. intros f Hf. apply apply_out. apply (touches_false s (tb_pk tb) f Af). destruct WT as (_ & _ & W3 & _). apply (proj1 (proj2 (W3 ix Hix))). exact Hf. }
          split; [exact (upd_keep s d [] _ Af)|]. unfold rec_key, rec_val. rewrite (upd_keep s d [] _ Tf), Er. auto. }
        apply (final_good tb WT Tt st st4 olds news (affected tb s) G RD WN NDN IncA Ro Fr Uq).
        -- intros ix k v Hix Hk. rewrite (Q3 ix k v (proj2 (order_In _ ix) Hix) Hk). unfold ins_en, dml_en. rewrite Ix3, (E2 ix k v Hix Hk). tauto.
        -- intros ix k Hix I1 Hk.
           assert (Far : forall ix', In ix' (order (affected tb s)) -> id_of k <> ix_id ix').
           { intros ix' H' E. apply (proj1 (order_In _ ix')) in H'. apply I1. destruct WT as (_ & _ & _ & U & _). rewrite (U ix ix'); auto. congruence. }
           rewrite (Q4 k Far), Ix3, (Y3 k Far). exact (pidx_eq _ _ Ix1 k).
        -- intros ix Hix I1. split.
           ++ intros r Hr. apply in_map_iff in Hr. destruct Hr as (d & <- & Hd). exists d. destruct (Same ix d Hix I1) as (S1 & S2 & S3). auto.
           ++ intros d Hd. exists (upd s d []). destruct (Same ix d Hix I1) as (S1 & S2 & S3). split; [apply in_map_iff; exists d; auto|auto].
      * intros r q e o Hr Ro' Nq [E|(ix & Hix & U & _ & E)].
        -- destruct (Fr r Hr) as [Z|Z]; rewrite E, (R_pk tb WT st G _ _ _ Ro') in Z; [contradiction|congruence].
        -- exact (Uq ix r q e o Hix U Hr Ro' Nq E).
    + destruct Q as (ix & Hix & Q). apply (proj1 (order_In _ ix)) in Hix. intros [Ap Cl]. apply Q. intros U. split.
      * apply (apart_iff tb) in Ap. apply Ap; [exact (IncA ix Hix)|exact U].
      * intros r Hr. rewrite Ix3. destruct (pidx st2 (rec_key ix r)) as [[e v]|] eqn:E; [|reflexivity]. exfalso.
        destruct (Left ix r e v Hix U E) as (o & Ro & No & Po). apply (Cl r (pk o) 0 o Hr Ro No). right. exists ix. unfold every. auto.
  - intros [_ Cl]. destruct P as (A & [P|(r & Hr & P)]); [contradiction|]. rewrite R2, R1, A in P.
    destruct (in_dec cells_dec (pk r) (pks olds)) as [Z|Z]; [congruence|]. destruct (R st (pk r)) as [[e o]|] eqn:E; [|congruence].
    apply (Cl r (pk r) e o Hr E Z). left. symmetry. exact (R_pk tb WT st G _ _ _ E).
Qed.

Lemma update_facts s st ps : good st -> Forall (wf_key tb) ps -> NoDup ps -> wf_stmt tb s -> s_updates s <> [] -> s_node s = UpdateNode ->
  match run_gupdate tb s st ps with
  | Some (st', n) => good st' /\ ~ update_clash tb s (R st) ps /\ updated tb s (R st) ps (R st') /\ how_many s (R st) ps n
  | None => update_clash tb s (R st) ps
  end.
Proof.
  intros G WP NDp WS Ne Nd. assert (Ud : upd_or_del s = true) by (unfold upd_or_del; rewrite Nd; reflexivity).
  pose proof (update_core s st ps G WP NDp WS Ne) as X. cbv zeta in X.
  set (olds := snd (del_primaries tb (satisfy s) (affect_pk tb s) st ps)) in *. clearbody olds. destruct X as (O1 & ND & X).
  pose proof (chosen_iff s st G ps olds O1 Ud) as Ch. pose proof (olds_rows s st G ps olds O1) as RD.
  set (news := map (fun o => upd s o []) olds) in *.
  assert (Clash : update_clash tb s (R st) ps <-> ~ (apart tb news /\ clear_of tb st olds news)).
  { split.
    - intros (q & o & q' & o' & C & Nq & D) [Ap Cl]. apply Ch in C. destruct C as [C <-]. destruct D as [[D K]|((e' & D) & Nc & K)].
      + apply Ch in D. destruct D as [D <-]. apply (Ignore.no_mutual_apart tb) in Ap.
        apply In_nth_error in C. destruct C as (i & Hi). apply In_nth_error in D. destruct D as (j & Hj).
        apply (Ap i j (set_row s o []) (set_row s o' [])); [| | |exact K].
        * unfold news. rewrite <- upd_set. exact (map_nth_error (fun o => upd s o []) i olds Hi).
        * unfold news. rewrite <- upd_set. exact (map_nth_error (fun o => upd s o []) j olds Hj).
        * intros <-. apply Nq. congruence.
      + apply (Cl (set_row s o []) q' e' o'); [|exact D| |exact K].
        * rewrite <- upd_set. unfold news. apply in_map_iff. exists o. auto.
        * intros I1. apply Nc. apply Ch. apply in_map_iff in I1. destruct I1 as (d & <- & I1). pose proof (RD d I1) as Z. rewrite D in Z. injection Z as _ ->. auto.
    - intros N.
      destruct (batch_ok tb [] news) eqn:B.
      + apply (batch_apart tb GT) in B.
        assert (D1 : (exists d q e o, In d olds /\ R st q = Some (e, o) /\ ~ In q (pks olds) /\ clash (upd s d []) o) \/
                     forall d, In d olds -> forall q e o, R st q = Some (e, o) -> ~ In q (pks olds) -> ~ clash (upd s d []) o).
        { assert (Sub : forall l, (exists d q e o, In d l /\ R st q = Some (e, o) /\ ~ In q (pks olds) /\ clash (upd s d []) o) \/
                     forall d, In d l -> forall q e o, R st q = Some (e, o) -> ~ In q (pks olds) -> ~ clash (upd s d []) o).
          { induction l as [|d l IH]; [right; intros d []|]. destruct IH as [(d' & q & e & o & A & Z)|IH]; [left; exists d', q, e, o; split; [right; exact A|exact Z]|].
            destruct (stored_clash_dec tb (fun q => if in_dec cells_dec q (pks olds) then None else R st q) (map fst (st_rows st)) (upd s d [])) as [(q & e & o & Z & C)|Z].
            - intros q e o Z. destruct (in_dec cells_dec q (pks olds)); [discriminate|]. exact (R_dom tb GT st q e o Z).
            - left. exists d, q, e, o. destruct (in_dec cells_dec q (pks olds)); [discriminate|]. split; [left; reflexivity|auto].
            - right. intros d' [<-|A]; [|exact (IH d' A)]. intros q e o Z1 Z2. apply (Z q e o). destruct (in_dec cells_dec q (pks olds)); [contradiction|exact Z1]. }
          apply Sub. }
        destruct D1 as [(d & q & e & o & A & Z1 & Z2 & C)|D1].
        * exists (pk d), d, q, o. split; [apply Ch; auto|]. split; [intros ->; apply Z2; apply in_map; exact A|]. right. split; [exists e; exact Z1|].
          split; [|rewrite <- upd_set; exact C]. intros K. apply Ch in K. destruct K as [K <-]. apply Z2. apply in_map. exact K.
        * exfalso. apply N. split; [exact B|]. intros r q e o Hr. apply in_map_iff in Hr. destruct Hr as (d & <- & Hd). exact (D1 d Hd q e o).
      + assert (NA : ~ apart tb news) by (rewrite <- (batch_apart tb GT); congruence).
        assert (D2 : exists d d', In d olds /\ In d' olds /\ pk d' <> pk d /\ clash (upd s d []) (upd s d' [])).
        { clear -GT NA ND. unfold news in NA. clear news. induction olds as [|d l IH]; [exfalso; apply NA; constructor|]. inversion ND as [|? ? N1 N2]; subst. cbn [map] in NA.
          assert (D3 : (exists d', In d' l /\ clash (upd s d []) (upd s d' [])) \/ forall d', In d' l -> ~ clash (upd s d []) (upd s d' [])).
          { clear -GT. induction l as [|a l IH]; [right; intros d' []|]. destruct IH as [(d' & A & B)|IH]; [left; exists d'; split; [right; exact A|exact B]|].
            destruct (clash_dec tb (upd s d []) (upd s a [])) as [Y|Y]; [left; exists a; split; [left; reflexivity|exact Y]|right]. intros d' [<-|A]; auto. }
          destruct D3 as [(d' & A & B)|D3].
          - exists d, d'. split; [left; reflexivity|]. split; [right; exact A|]. split; [|exact B]. intros E. apply N1. rewrite <- E. apply in_map. exact A.
          - destruct (IH N2) as (a & b & A & B & C).
            + intros Ap. apply NA. constructor; [|exact Ap]. apply Forall_forall. intros x Hx. apply in_map_iff in Hx. destruct Hx as (d' & <- & Hd). exact (D3 d' Hd).
            + exists a, b. split; [right; exact A|]. split; [right; exact B|exact C]. }
        destruct D2 as (d & d' & A & A' & Np & C). exists (pk d), d, (pk d'), d'. split; [apply Ch; auto|]. split; [exact Np|]. left. split; [apply Ch; auto|]. rewrite <- !upd_set. exact C. }
  destruct (run_gupdate tb s st ps) as [[st' n]|]; [|apply Clash; exact X]. destruct X as (G' & Ap & Cl & Ro & ->).
  split; [exact G'|]. split; [intros K; apply Clash in K; tauto|]. split; [|exact (olds_many s st G ps olds O1 Ud ND)].
  assert (NDN : NoDup (pks news)) by (apply (apart_iff tb); exact Ap).
  intros q e r. rewrite Ro. unfold new_rows. destruct (with_pk news q) as [r'|] eqn:E.
  - apply with_pk_some in E. destruct E as [E1 E2]. split.
    + intros Z. injection Z as <- <-. left. apply in_map_iff in E1. destruct E1 as (o & Eo & E1). exists (pk o), o. split; [apply Ch; auto|]. rewrite <- upd_set. auto.
    + intros [(q0 & o & C & Er & Eq & ->)|[A Nc]].
      * apply Ch in C. destruct C as [C _]. do 2 f_equal. assert (Hr : In r news) by (rewrite Er, <- upd_set; apply in_map_iff; exists o; auto).
        pose proof (with_pk_in tb news r NDN Hr) as Y1. pose proof (with_pk_in tb news r' NDN E1) as Y2. rewrite Eq in Y1. rewrite E2, Y1 in Y2. congruence.
      * exfalso. assert (In q (pks olds) \/ ~ In q (pks olds)) as [I1|I1] by (destruct (in_dec cells_dec q (pks olds)); auto).
        -- apply Nc. apply Ch. apply in_map_iff in I1. destruct I1 as (d & Ed & I1). pose proof (RD d I1) as Z. rewrite Ed, A in Z. injection Z as _ <-. auto.
        -- apply (Cl r' q e r E1 A I1). left. rewrite E2. symmetry. exact (R_pk tb WT st G _ _ _ A).
  - apply with_pk_none in E. destruct (in_dec cells_dec q (pks olds)) as [I1|I1].
    + split; [discriminate|]. intros [(q0 & o & C & Er & Eq & _)|[A Nc]].
      * exfalso. apply E. rewrite <- Eq, Er, <- upd_set. apply in_map. apply Ch in C. apply in_map_iff. exists o. tauto.
      * exfalso. apply Nc. apply Ch. apply in_map_iff in I1. destruct I1 as (d & Ed & I1). pose proof (RD d I1) as Z. rewrite Ed, A in Z. injection Z as _ <-. auto.
    + split.
      * intros A. right. split; [exact A|]. intros C. apply Ch in C. destruct C as [C <-]. apply I1. apply in_map. exact C.
      * intros [(q0 & o & C & Er & Eq & _)|[A _]]; [|exact A]. exfalso. apply E. rewrite <- Eq, Er, <- upd_set. apply in_map. apply Ch in C. apply in_map_iff. exists o. tauto.
Qed.
End UD.
