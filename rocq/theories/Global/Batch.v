(* A batch of deletions and insertions on the table and all its indexes: when it fails, and
   that it keeps the indexes in step with the rows *)
From Verif.Dml Require Import Base Inv Rows.
From Verif.Global Require Import Model Spec Core.
Local Open Scope Z_scope.

Notation id_of k := (fst (fst k)).

Lemma FOP_NoDup {A B} (f : A -> B) l : ForallOrdPairs (fun a b => f a <> f b) l <-> NoDup (map f l).
Proof.
  induction l as [|a l IH]; cbn [map].
  - split; constructor.
  - split.
    + intros X. inversion X; subst. constructor; [|apply IH; assumption]. intros Y. apply in_map_iff in Y. destruct Y as (b & E & Y).
      rewrite Forall_forall in H1. exact (H1 b Y (eq_sym E)).
    + intros X. inversion X; subst. constructor; [|apply IH; assumption]. apply Forall_forall. intros b Y E. apply H1. rewrite E. apply in_map. exact Y.
Qed.
Lemma FOP_and {A} (P Q : A -> A -> Prop) l : ForallOrdPairs (fun a b => P a b /\ Q a b) l <-> ForallOrdPairs P l /\ ForallOrdPairs Q l.
Proof.
  induction l as [|a l IH].
  - split; [intros _; split; constructor|constructor].
  - split.
    + intros X. inversion X; subst. apply IH in H2. destruct H2. split; constructor; auto; eapply Forall_impl; try exact H1; cbn; tauto.
    + intros [X Y]. inversion X; subst. inversion Y; subst. constructor; [|apply IH; auto]. apply Forall_forall. intros b Hb.
      rewrite Forall_forall in *. auto.
Qed.
Lemma FOP_ext {A} (P Q : A -> A -> Prop) l : (forall a b, In a l -> In b l -> P a b -> Q a b) -> ForallOrdPairs P l -> ForallOrdPairs Q l.
Proof.
  induction l as [|a l IH]; intros E X; [constructor|]. inversion X; subst. constructor.
  - apply Forall_forall. intros b Hb. rewrite Forall_forall in H1. apply E; [left; reflexivity|right; exact Hb|auto].
  - apply IH; [|assumption]. intros; apply E; try right; assumption.
Qed.

Section List.
Variable L : list index.
Hypothesis ND : NoDup L.
Hypothesis Inj : forall i j, In i L -> In j L -> ix_id i = ix_id j -> i = j.
Definition same_on (ix : index) (st st' : store) : Prop := forall k, id_of k = ix_id ix -> pidx st k = pidx st' k.
Variable f : store -> index -> option store.
Variable Pre : index -> store -> Prop.
Variable Okc : index -> store -> Prop.
Variable En : index -> store -> ikey -> Z * list cell -> Prop.
Hypothesis Loc_pre : forall ix st st', same_on ix st st' -> Pre ix st -> Pre ix st'.
Hypothesis Loc_ok : forall ix st st', In ix L -> same_on ix st st' -> Okc ix st -> Okc ix st'.
Hypothesis Loc_en : forall ix st st' k v, same_on ix st st' -> id_of k = ix_id ix -> En ix st k v -> En ix st' k v.
Hypothesis Step : forall ix st, In ix L -> Pre ix st ->
  match f st ix with
  | Some st' => st_rows st' = st_rows st /\ Okc ix st /\
      (forall k v, id_of k = ix_id ix -> (pidx st' k = Some v <-> En ix st k v)) /\
      (forall k, id_of k <> ix_id ix -> pidx st' k = pidx st k)
  | None => ~ Okc ix st
  end.
Lemma same_sym ix st st' : same_on ix st st' -> same_on ix st' st.
Proof. intros E k Hk. symmetry. apply E. exact Hk. Qed.
Lemma over_indexes l : incl l L -> NoDup l -> forall st, (forall ix, In ix l -> Pre ix st) ->
  match ofold f l st with
  | Some st' => st_rows st' = st_rows st /\ (forall ix, In ix l -> Okc ix st) /\
      (forall ix k v, In ix l -> id_of k = ix_id ix -> (pidx st' k = Some v <-> En ix st k v)) /\
      (forall k, (forall ix, In ix l -> id_of k <> ix_id ix) -> pidx st' k = pidx st k)
  | None => exists ix, In ix l /\ ~ Okc ix st
  end.
Proof.
  induction l as [|ix l IH]; intros Inc NDl st HP; cbn [ofold].
  - split; [reflexivity|]. split; [intros ix []|]. split; [intros ix k v []|]. reflexivity.
  - pose proof (Step ix st (Inc ix (or_introl eq_refl)) (HP ix (or_introl eq_refl))) as S1. inversion NDl; subst.
    destruct (f st ix) as [st1|]; [|exists ix; split; [left; reflexivity|exact S1]].
    destruct S1 as (A & B & C & D).
    assert (Sm : forall j, In j l -> same_on j st st1).
    { intros j Hj k Hk. symmetry. apply D. rewrite Hk. intros E. apply H1. rewrite <- (Inj j ix); auto; apply Inc; [right; exact Hj|left; reflexivity]. }
    specialize (IH (fun j Hj => Inc j (or_intror Hj)) H2 st1).
    destruct (ofold f l st1) as [st2|].
    + destruct IH as (A2 & B2 & C2 & D2). { intros j Hj. apply (Loc_pre j st); [apply Sm; exact Hj|]. apply HP. right. exact Hj. }
      split; [congruence|]. split; [|split].
      * intros j [<-|Hj]; [exact B|]. apply (Loc_ok j st1); [apply Inc; right; exact Hj|apply same_sym, Sm; exact Hj|exact (B2 j Hj)].
      * intros j k v [<-|Hj] Hk.
        -- rewrite D2; [apply C; exact Hk|]. intros j Hj. rewrite Hk. intros E. apply H1. rewrite (Inj ix j); auto; apply Inc; [left; reflexivity|right; exact Hj].
        -- rewrite (C2 j k v Hj Hk). split; apply Loc_en; auto. apply same_sym, Sm; exact Hj.
      * intros k N. rewrite D2 by (intros j Hj; apply N; right; exact Hj). apply D. apply N. left. reflexivity.
    + destruct IH as (j & Hj & X). { intros j Hj. apply (Loc_pre j st); [apply Sm; exact Hj|]. apply HP. right. exact Hj. }
      exists j. split; [right; exact Hj|]. intros Y. apply X. apply (Loc_ok j st); [apply Inc; right; exact Hj|apply Sm; exact Hj|exact Y].
Qed.
End List.

Lemma ofold_total {A S} (g : S -> A -> S) l : forall s, ofold (fun s a => Some (g s a)) l s = Some (fold_left g l s).
Proof. induction l as [|a l IH]; intros s; cbn; auto. Qed.
Lemma order_In ixs ix : In ix (order ixs) <-> In ix ixs.
Proof.
  unfold order. rewrite in_app_iff, !filter_In. split; [tauto|]. intros X. destruct (ix_uniq ix); [left|right]; split; auto.
Qed.
Lemma order_NoDup ixs : NoDup ixs -> NoDup (order ixs).
Proof.
  intros ND. unfold order.
  assert (X : forall a b : list index, NoDup a -> NoDup b -> (forall i, In i a -> In i b -> False) -> NoDup (a ++ b)).
  { induction a as [|i a IH]; intros b Na Nb D; [exact Nb|]. inversion Na; subst. cbn. constructor.
    - rewrite in_app_iff. intros [Y|Y]; [contradiction|]. exact (D i (or_introl eq_refl) Y).
    - apply IH; auto. intros j Ha Hb. exact (D j (or_intror Ha) Hb). }
  apply X; try (apply NoDup_filter; exact ND). intros i A B. apply filter_In in A. apply filter_In in B. destruct A as [_ A], B as [_ B].
  rewrite A in B. discriminate.
Qed.

Definition index_dec (a b : index) : {a = b} + {a <> b}.
Proof.
  decide equality; [apply bool_dec|decide equality|apply (list_eq_dec Nat.eq_dec)|apply (list_eq_dec Nat.eq_dec)|apply bool_dec|apply Z.eq_dec].
Defined.

Section Batch.
Variable tb : table.
Hypothesis WT : wf_table tb.
Hypothesis Tt : tb_ttl tb = false.
Hypothesis Tc : tb_cstore tb = false.
Hypothesis Nx : NoDup (tb_indexes tb).
Notation ev := (genv tb).
Notation pk := (pk_of tb).
Notation R := (rows ev).
Notation all := (tb_indexes tb).
Notation good := (good_store tb).
Notation pks := (Core.pks tb).
Notation with_pk := (Core.with_pk tb).

Lemma all_inj l : incl l all -> forall i j, In i l -> In j l -> ix_id i = ix_id j -> i = j.
Proof. destruct WT as (_ & _ & _ & U & _). intros Inc i j A B. apply U; apply Inc; assumption. Qed.
Lemma rec_key_id ix r : id_of (rec_key ix r) = ix_id ix.
Proof. reflexivity. Qed.
Lemma keyin_id ix k l : keyin ix k l -> id_of k = ix_id ix.
Proof. intros (r & _ & ->). reflexivity. Qed.

(* ---------------- the deletions of entries ---------------- *)
Lemma dels_all st0 D l st : good st0 -> incl l all -> NoDup l -> (forall d, In d D -> R st0 (pk d) = Some (0, d)) ->
  (forall k, pidx st k = pidx st0 k) ->
  let st' := fold_left (fun st ix => fold_left (del_index tb ix) D st) l st in
  st_rows st' = st_rows st /\
  (forall ix k v, In ix l -> id_of k = ix_id ix -> (pidx st' k = Some v <-> ~ keyin ix k D /\ pidx st k = Some v)) /\
  (forall k, (forall ix, In ix l -> id_of k <> ix_id ix) -> pidx st' k = pidx st k).
Proof.
  intros G Inc ND RD Eq. cbn zeta.
  pose proof (over_indexes l (all_inj l Inc) (fun st ix => Some (fold_left (del_index tb ix) D st))
    (fun ix st => forall k v, id_of k = ix_id ix -> pidx st k = Some v -> pidx st0 k = Some v) (fun _ _ => True)
    (fun ix st k v => ~ keyin ix k D /\ pidx st k = Some v)) as X.
  specialize (X ltac:(intros ix s s' Sm Hp k v Hk E; apply Hp; [exact Hk|]; rewrite (Sm k Hk); exact E)).
  specialize (X ltac:(auto)).
  specialize (X ltac:(intros ix s s' k v Sm Hk [A B]; split; [exact A|]; rewrite <- (Sm k Hk); exact B)).
  assert (St : forall ix st1, In ix l -> (forall k v, id_of k = ix_id ix -> pidx st1 k = Some v -> pidx st0 k = Some v) ->
    st_rows (fold_left (del_index tb ix) D st1) = st_rows st1 /\ True /\
    (forall k v, id_of k = ix_id ix -> (pidx (fold_left (del_index tb ix) D st1) k = Some v <-> ~ keyin ix k D /\ pidx st1 k = Some v)) /\
    (forall k, id_of k <> ix_id ix -> pidx (fold_left (del_index tb ix) D st1) k = pidx st1 k)).
  { intros ix st1 Hix Hp. destruct (del_index_all tb Tt st0 ix D G (Inc ix Hix) RD st1 Hp) as [A B].
    split; [exact A|]. split; [exact Logic.I|]. split; [intros; apply B|]. intros k Hk.
    destruct (pidx (fold_left (del_index tb ix) D st1) k) as [v|] eqn:E.
    - apply B in E. symmetry. tauto.
    - destruct (pidx st1 k) as [v|] eqn:E2; [|reflexivity]. exfalso.
      assert (Y : pidx (fold_left (del_index tb ix) D st1) k = Some v); [|congruence].
      apply B. split; [|exact E2]. intros Ki. apply Hk. exact (keyin_id _ _ _ Ki). }
  specialize (X St l (incl_refl l) ND st). rewrite ofold_total in X.
  destruct X as (A & _ & B & C); [|auto]. intros ix Hix k v Hk E. rewrite <- Eq. exact E.
Qed.

(* ---------------- the insertions of entries ---------------- *)
Definition ins_cond (Il : list rec) (ix : index) (st : store) : Prop :=
  ix_uniq ix = true -> keys_distinct ix Il /\ forall r, In r Il -> pidx st (rec_key ix r) = None.
Definition ins_en (Il : list rec) (ix : index) (st : store) (k : ikey) (v : Z * list cell) : Prop :=
  (exists r, In r Il /\ k = rec_key ix r /\ v = (0, rec_val ix r)) \/ (~ keyin ix k Il /\ pidx st k = Some v).
Lemma inss_all Il l st : incl l all -> NoDup l ->
  match ofold (fun st ix => ofold (ins_index tb ix) Il st) l st with
  | Some st' => st_rows st' = st_rows st /\ (forall ix, In ix l -> ins_cond Il ix st) /\
      (forall ix k v, In ix l -> id_of k = ix_id ix -> (pidx st' k = Some v <-> ins_en Il ix st k v)) /\
      (forall k, (forall ix, In ix l -> id_of k <> ix_id ix) -> pidx st' k = pidx st k)
  | None => exists ix, In ix l /\ ~ ins_cond Il ix st
  end.
Proof.
  intros Inc ND.
  apply (over_indexes l (all_inj l Inc) _ (fun _ _ => True) (ins_cond Il) (ins_en Il)); auto using incl_refl.
  - intros ix s s' _ Sm C U. destruct (C U) as [A B]. split; [exact A|]. intros r Hr. rewrite <- (Sm (rec_key ix r) eq_refl). exact (B r Hr).
  - intros ix s s' k v Sm Hk [X|[A B]]; [left; exact X|]. right. split; [exact A|]. rewrite <- (Sm k Hk). exact B.
  - intros ix s _ _. pose proof (ins_index_all tb Tt ix Il s) as X. destruct (ofold (ins_index tb ix) Il s) as [s'|].
    + destruct X as (A & B & C). split; [exact A|]. split; [exact B|]. split; [intros; apply C|]. intros k Hk.
      destruct (pidx s' k) as [v|] eqn:E.
      * apply C in E. destruct E as [(r & _ & -> & _)|[_ E]]; [exfalso; apply Hk; reflexivity|]. symmetry. exact E.
      * destruct (pidx s k) as [v|] eqn:E2; [|reflexivity]. exfalso. assert (Y : pidx s' k = Some v); [|congruence].
        apply C. right. split; [|exact E2]. intros Ki. apply Hk. exact (keyin_id _ _ _ Ki).
    + destruct X as (U & X). intros C. destruct (C U) as [A B]. destruct X as [X|(r & X & Y)]; [contradiction|]. apply Y. apply B. exact X.
Qed.

(* ---------------- both, index by index ---------------- *)
Definition dml_cond (D Il : list rec) (ix : index) (st : store) : Prop :=
  ix_uniq ix = true -> keys_distinct ix Il /\ forall r, In r Il -> keyin ix (rec_key ix r) D \/ pidx st (rec_key ix r) = None.
Definition dml_en (D Il : list rec) (ix : index) (st : store) (k : ikey) (v : Z * list cell) : Prop :=
  (exists r, In r Il /\ k = rec_key ix r /\ v = (0, rec_val ix r)) \/ (~ keyin ix k Il /\ ~ keyin ix k D /\ pidx st k = Some v).
Lemma dml_all st0 D Il l st : good st0 -> incl l all -> NoDup l -> (forall d, In d D -> R st0 (pk d) = Some (0, d)) ->
  (forall k, pidx st k = pidx st0 k) ->
  match ofold (dml_index tb D Il) l st with
  | Some st' => st_rows st' = st_rows st /\ (forall ix, In ix l -> dml_cond D Il ix st) /\
      (forall ix k v, In ix l -> id_of k = ix_id ix -> (pidx st' k = Some v <-> dml_en D Il ix st k v)) /\
      (forall k, (forall ix, In ix l -> id_of k <> ix_id ix) -> pidx st' k = pidx st k)
  | None => exists ix, In ix l /\ ~ dml_cond D Il ix st
  end.
Proof.
  intros G Inc ND RD Eq.
  apply (over_indexes l (all_inj l Inc) _ (fun ix st => forall k v, id_of k = ix_id ix -> pidx st k = Some v -> pidx st0 k = Some v)
    (dml_cond D Il) (dml_en D Il)); auto using incl_refl.
  - intros ix s s' Sm Hp k v Hk E. apply Hp; [exact Hk|]. rewrite (Sm k Hk). exact E.
  - intros ix s s' _ Sm C U. destruct (C U) as [A B]. split; [exact A|]. intros r Hr. rewrite <- (Sm (rec_key ix r) eq_refl). exact (B r Hr).
  - intros ix s s' k v Sm Hk [X|(A & B & C)]; [left; exact X|]. right. split; [exact A|]. split; [exact B|]. rewrite <- (Sm k Hk). exact C.
  - intros ix s Hix Hp. unfold dml_index. destruct (del_index_all tb Tt st0 ix D G (Inc ix Hix) RD s Hp) as [A B].
    set (s1 := fold_left (del_index tb ix) D s) in *.
    assert (None1 : forall k, keyin ix k D \/ pidx s k = None <-> pidx s1 k = None).
    { intros k. split.
      - intros X. destruct (pidx s1 k) as [v|] eqn:E; [|reflexivity]. apply B in E. destruct E as [E1 E2]. destruct X; [contradiction|congruence].
      - intros X. destruct (keyin_dec ix k D) as [Y|Y]; [left; exact Y|right]. destruct (pidx s k) as [v|] eqn:E; [|reflexivity].
        assert (Z : pidx s1 k = Some v) by (apply B; auto). congruence. }
    pose proof (ins_index_all tb Tt ix Il s1) as X. destruct (ofold (ins_index tb ix) Il s1) as [s'|].
    + destruct X as (A2 & B2 & C2). split; [congruence|]. split; [|split].
      * intros U. destruct (B2 U) as [X Y]. split; [exact X|]. intros r Hr. apply None1. exact (Y r Hr).
      * intros k v Hk. rewrite C2. unfold dml_en. split; (intros [X|X]; [left; exact X|right]).
        -- destruct X as [X Y]. apply B in Y. tauto.
        -- destruct X as (X & Y & Z). split; [exact X|]. apply B. auto.
      * intros k Hk. destruct (pidx s' k) as [v|] eqn:E.
        -- apply C2 in E. destruct E as [(r & _ & -> & _)|[_ E]]; [exfalso; apply Hk; reflexivity|]. apply B in E. symmetry. tauto.
        -- destruct (pidx s k) as [v|] eqn:E2; [|reflexivity]. exfalso. assert (Y : pidx s' k = Some v); [|congruence].
           apply C2. right. split; [intros Ki; apply Hk; exact (keyin_id _ _ _ Ki)|]. apply B. split; [|exact E2]. intros Ki. apply Hk. exact (keyin_id _ _ _ Ki).
    + destruct X as (U & X). intros C. destruct (C U) as [C1 C2]. destruct X as [X|(r & X & Y)]; [contradiction|]. apply Y. apply None1. apply C2. exact X.
  - intros ix Hix k v Hk E. rewrite <- Eq. exact E.
Qed.

(* ---------------- the indexes stay in step ---------------- *)
Definition new_rows (D Il : list rec) (st : store) (q : list cell) : option (Z * rec) :=
  match with_pk Il q with Some r => Some (0, r) | None => if in_dec cells_dec q (pks D) then None else R st q end.
Lemma final_good st st' D Il (A : list index) :
  good st -> (forall d, In d D -> R st (pk d) = Some (0, d)) -> Forall (wf_row tb) Il -> NoDup (pks Il) -> incl A all ->
  (forall q, R st' q = new_rows D Il st q) ->
  (forall r, In r Il -> In (pk r) (pks D) \/ R st (pk r) = None) ->
  (forall ix r q e o, In ix all -> ix_uniq ix = true -> In r Il -> R st q = Some (e, o) -> ~ In q (pks D) -> proj r (ix_fields ix) <> proj o (ix_fields ix)) ->
  (forall ix k v, In ix A -> id_of k = ix_id ix -> (pidx st' k = Some v <-> dml_en D Il ix st k v)) ->
  (forall ix k, In ix all -> ~ In ix A -> id_of k = ix_id ix -> pidx st' k = pidx st k) ->
  (forall ix, In ix all -> ~ In ix A ->
     (forall r, In r Il -> exists d, In d D /\ pk r = pk d /\ rec_key ix r = rec_key ix d /\ rec_val ix r = rec_val ix d) /\
     (forall d, In d D -> exists r, In r Il /\ pk r = pk d /\ rec_key ix r = rec_key ix d /\ rec_val ix r = rec_val ix d)) ->
  good st'.
Proof.
  intros G RD WI NDI IncA Rows Fresh Uq EnA Oth Un.
  assert (Cases : forall q e o, R st' q = Some (e, o) ->
    (In o Il /\ pk o = q /\ e = 0) \/ (~ In q (pks Il) /\ ~ In q (pks D) /\ R st q = Some (e, o))).
  { intros q e o X. rewrite Rows in X. unfold new_rows in X. destruct (with_pk Il q) as [r|] eqn:E.
    - injection X as <- <-. apply with_pk_some in E. left. tauto.
    - apply with_pk_none in E. destruct (in_dec cells_dec q (pks D)); [discriminate|]. right. auto. }
  assert (RI : forall r, In r Il -> R st' (pk r) = Some (0, r)).
  { intros r Hr. rewrite Rows. unfold new_rows. rewrite with_pk_in by assumption. reflexivity. }
  assert (RO : forall q e o, ~ In q (pks Il) -> ~ In q (pks D) -> R st q = Some (e, o) -> R st' q = Some (e, o)).
  { intros q e o X Y Z. rewrite Rows. unfold new_rows. apply with_pk_none in X. rewrite X. destruct (in_dec cells_dec q (pks D)); [contradiction|exact Z]. }
  rewrite Forall_forall in WI.
  split.
  - intros q e o X. destruct (Cases q e o X) as [(Ho & Pq & ->)|(_ & _ & X')].
    + destruct (WI o Ho) as (L & N & _). subst q. split; [apply pk_of_length|]. split; [exact N|reflexivity].
    + exact (proj1 G q e o X').
  - intros ix Hix. destruct (in_dec index_dec ix A) as [HA|HA].
    + (* an index that was written *)
      split.
      * intros cs rest e Hh _ _. unfold holds in Hh.
        apply (EnA ix _ _ HA) in Hh; [|reflexivity]. destruct Hh as [(r & Hr & Ek & Ev)|(Nk & Nd & Hh)].
        -- exists r. assert (Ec : cs = proj r (ix_fields ix) /\ rest = proj r (ix_rest ix) /\ e = 0).
           { unfold rec_key in Ek. unfold rec_val in Ev. injection Ek as E1 E2. destruct (ix_uniq ix); injection Ev as E3; auto. }
           destruct Ec as (-> & -> & ->). destruct (WI r Hr) as (L & _). cbn [genv e_tb]. rewrite (entry_pk_row tb ix r WT Hix L). split; [apply RI; exact Hr|]. auto.
        -- assert (Hh' : holds st ix cs rest e) by exact Hh.
           destruct (proj1 (proj2 G ix Hix) cs rest e Hh' (live tb Tt e) eq_refl) as (o & Ro & E1 & E2). cbn [genv e_tb] in Ro. exists o. split; [|auto].
           assert (Ko : (ix_id ix, cs, if ix_uniq ix then [] else rest) = rec_key ix o) by (unfold rec_key; rewrite E1, E2; reflexivity).
           pose proof (R_pk tb WT st G _ _ _ Ro) as Po. cbn [genv e_tb].
           assert (NqD : ~ In (entry_pk tb ix cs rest) (pks D)).
           { intros X. apply in_map_iff in X. destruct X as (d & Ed & X). apply Nd. exists d. split; [exact X|]. rewrite Ko.
             specialize (RD d X). rewrite Ed, Ro in RD. congruence. }
           apply RO; [|exact NqD|exact Ro]. intros X. apply in_map_iff in X. destruct X as (r & Er & X).
           destruct (Fresh r X) as [Y|Y]; rewrite Er in Y; [contradiction|congruence].
      * intros q e o _ X. destruct (Cases q e o X) as [(Ho & Pq & ->)|(NI & NDd & X')].
        -- unfold holds. apply (EnA ix _ _ HA); [reflexivity|]. left. exists o. auto.
        -- pose proof (proj2 (proj2 G ix Hix) q e o Logic.I X') as Hh. unfold holds in *. apply (EnA ix _ _ HA); [reflexivity|]. right.
           pose proof (R_pk tb WT st G _ _ _ X') as Po. pose proof (R_len tb st _ _ _ X') as Lo.
           split; [|split; [|exact Hh]].
           ++ intros (r & Hr & Ek). change (rec_key ix o = rec_key ix r) in Ek. destruct (ix_uniq ix) eqn:U.
              ** apply (Uq ix r q e o Hix U Hr X' NDd). unfold rec_key in Ek. injection Ek as Ek _. auto.
              ** apply NI. rewrite <- Po. rewrite (pk_from_key tb WT ix o r Hix Lo (proj1 (WI r Hr)) Ek); [apply in_map; exact Hr|].
                 rewrite !rec_val_key by exact U. reflexivity.
           ++ intros (d & Hd & Ek). change (rec_key ix o = rec_key ix d) in Ek. apply NDd.
              destruct (key_row tb WT Tt st G ix q e o (pk d) 0 d Hix X' (RD d Hd) Ek) as [_ ->]. apply in_map. exact Hd.
    + (* an index that was left alone *)
      destruct (Un ix Hix HA) as [U1 U2]. split.
      * intros cs rest e Hh _ _. assert (Hh' : holds st ix cs rest e) by (unfold holds in *; rewrite <- (Oth ix (ix_id ix, cs, if ix_uniq ix then [] else rest) Hix HA eq_refl); exact Hh).
        destruct (proj1 (proj2 G ix Hix) cs rest e Hh' (live tb Tt e) eq_refl) as (o & Ro & E1 & E2). cbn [genv e_tb] in Ro |- *.
        pose proof (R_pk tb WT st G _ _ _ Ro) as Po. pose proof (R_zero tb Tt st G _ _ _ Ro) as Ze. subst e.
        destruct (in_dec cells_dec (entry_pk tb ix cs rest) (pks D)) as [X|X].
        -- apply in_map_iff in X. destruct X as (d & Ed & X). specialize (RD d X). rewrite Ed, Ro in RD. injection RD as ->.
           destruct (U2 d X) as (r & Hr & Pr & Kr & Vr). exists r. rewrite <- Po, <- Pr. split; [apply RI; exact Hr|].
           unfold rec_key in Kr. unfold rec_val in Vr. injection Kr as K1 K2. destruct (ix_uniq ix); split; congruence.
        -- exists o. split; [|auto]. apply RO; [|exact X|exact Ro]. intros Y. apply in_map_iff in Y. destruct Y as (r & Er & Y).
           destruct (U1 r Y) as (d & Hd & Pd & _). apply X. rewrite <- Er, Pd. apply in_map. exact Hd.
      * intros q e o _ X. unfold holds. rewrite (Oth ix (ix_id ix, proj o (ix_fields ix), if ix_uniq ix then [] else proj o (ix_rest ix)) Hix HA eq_refl). destruct (Cases q e o X) as [(Ho & Pq & ->)|(NI & NDd & X')].
        -- destruct (U1 o Ho) as (d & Hd & Pd & Kd & Vd). pose proof (entry_row tb Tt st G ix _ _ _ Hix (RD d Hd)) as Y. rewrite <- Kd, <- Vd in Y. exact Y.
        -- exact (proj2 (proj2 G ix Hix) q e o Logic.I X').
Qed.
End Batch.
