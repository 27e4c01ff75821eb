(* The batch as a whole, INSERT and INSERT IGNORE *)
From Coq Require Import FinFun.
From Verif.Dml Require Import Base Inv Rows.
From Verif.Global Require Import Model Spec Core Batch.
Local Open Scope Z_scope.

Section Stmts.
Variable tb : table.
Hypothesis GT : good_table tb.
Notation ev := (genv tb).
Notation pk := (pk_of tb).
Notation R := (rows ev).
Notation all := (tb_indexes tb).
Notation good := (good_store tb).
Notation pks := (Core.pks tb).
Notation with_pk := (Core.with_pk tb).
Notation clash := (Spec.clash tb every).

Definition WT : wf_table tb := proj1 GT.
Definition Tt : tb_ttl tb = false := proj1 (proj2 GT).
Definition Tc : tb_cstore tb = false := proj1 (proj2 (proj2 GT)).
Definition Nx : NoDup all := proj1 (proj2 (proj2 (proj2 GT))).
Definition Pu : forall ix, In ix all -> ix_state ix = Public := proj2 (proj2 (proj2 (proj2 GT))).

Lemma consistent_good st : consistent ev st <-> good st.
Proof.
  unfold consistent, good_store. split; intros [K C]; (split; [exact K|]); intros ix Hix; cbn [genv e_tb] in *.
  - destruct (C ix Hix) as [A B]. unfold cleared in A. unfold in_use in B. rewrite (Pu ix Hix) in A, B. auto.
  - destruct (C ix Hix). auto.
Qed.

(* ---------------- clashes ---------------- *)
Lemma kinds_In k : In k (kinds tb) <-> match k with None => True | Some ix => In ix all /\ ix_uniq ix = true end.
Proof.
  unfold kinds. destruct k as [ix|]; cbn [In].
  - rewrite in_map_iff. split.
    + intros [X|(i & E & X)]; [discriminate|]. injection E as ->. apply filter_In in X. exact X.
    + intros X. right. exists ix. split; [reflexivity|]. apply filter_In. exact X.
  - split; auto.
Qed.
Lemma clash_kinds r o : clash r o <-> exists k, In k (kinds tb) /\ kkey tb k r = kkey tb k o.
Proof.
  unfold Spec.clash. split.
  - intros [E|(ix & A & B & _ & E)]; [exists None|exists (Some ix)]; (split; [apply kinds_In; auto|exact E]).
  - intros (k & A & E). apply kinds_In in A. destruct k as [ix|]; [right; exists ix; tauto|left; exact E].
Qed.
Definition clashb (r o : rec) : bool := existsb (fun k => same_key tb k r o) (kinds tb).
Lemma same_key_iff k r o : same_key tb k r o = true <-> kkey tb k r = kkey tb k o.
Proof. unfold same_key. destruct (cells_dec _ _); split; congruence. Qed.
Lemma clashb_iff r o : clashb r o = true <-> clash r o.
Proof.
  unfold clashb. rewrite existsb_exists, clash_kinds. split; intros (k & A & B); exists k; (split; [exact A|]); apply same_key_iff; exact B.
Qed.
Lemma clash_sym r o : clash r o -> clash o r.
Proof. rewrite !clash_kinds. intros (k & A & B). exists k. auto. Qed.
Lemma clash_dec r o : {clash r o} + {~ clash r o}.
Proof. destruct (clashb r o) eqn:E; [left; apply clashb_iff; exact E|right; rewrite <- clashb_iff; congruence]. Qed.

(* two rows of the table do not clash *)
Lemma stored_apart st q e o q' e' o' : good st -> R st q = Some (e, o) -> R st q' = Some (e', o') -> clash o o' -> q = q'.
Proof.
  intros G E E' [P|(ix & Hix & U & _ & K)].
  - rewrite <- (R_pk tb WT st G _ _ _ E), <- (R_pk tb WT st G _ _ _ E'). exact P.
  - exact (proj2 (uniq_row tb WT Tt st G ix _ _ _ _ _ _ Hix U E E' K)).
Qed.

Definition apart (l : list rec) : Prop := ForallOrdPairs (fun r r' => ~ clash r r') l.
Definition clear_of (st : store) (D l : list rec) : Prop :=
  forall r q e o, In r l -> R st q = Some (e, o) -> ~ In q (pks D) -> ~ clash r o.
Lemma uniq_key ix r r' : ix_uniq ix = true -> rec_key ix r = rec_key ix r' <-> proj r (ix_fields ix) = proj r' (ix_fields ix).
Proof. intros U. unfold rec_key. rewrite U. split; [intros X; injection X as X; exact X|intros ->; reflexivity]. Qed.
Lemma apart_iff l : apart l <-> NoDup (pks l) /\ forall ix, In ix all -> ix_uniq ix = true -> keys_distinct ix l.
Proof.
  split.
  - intros A. split.
    + apply FOP_NoDup. eapply FOP_ext; [|exact A]. intros a b _ _ N E. apply N. left. exact E.
    + intros ix Hix U. apply FOP_NoDup. eapply FOP_ext; [|exact A]. intros a b _ _ N E. apply N. right. exists ix. rewrite uniq_key in E by exact U. unfold every. auto.
  - induction l as [|r l IH]; intros [A B]; [constructor|]. constructor.
    + apply Forall_forall. intros r' Hr' [E|(ix & Hix & U & _ & E)].
      * inversion A; subst. apply H1. rewrite E. apply in_map. exact Hr'.
      * specialize (B ix Hix U). inversion B; subst. apply H1. apply (uniq_key ix) in E; [|exact U]. rewrite E. apply in_map. exact Hr'.
    + apply IH. split; [inversion A; assumption|]. intros ix Hix U. specialize (B ix Hix U). inversion B; assumption.
Qed.

(* ---------------- the batch ---------------- *)
Lemma pidx_eq st st' : st_index st = st_index st' -> forall k, pidx st k = pidx st' k.
Proof. intros E k. unfold pidx. rewrite E. reflexivity. Qed.
Lemma dml_spec D Il st : good st -> (forall d, In d D -> R st (pk d) = Some (0, d)) -> Forall (wf_row tb) Il ->
  match dml tb D Il st with
  | Some st' => good st' /\ apart Il /\ clear_of st D Il /\ forall q, R st' q = new_rows tb D Il st q
  | None => ~ (apart Il /\ clear_of st D Il)
  end.
Proof.
  intros G RD WI. unfold dml, dml_primary.
  pose proof (del_primaries_index tb (fun _ => true) true (pks D) st) as Ix1.
  pose proof (del_primaries_spec tb WT Tt (fun _ => true) true (pks D) st (proj1 G)) as X.
  change (map (fun r => proj r (tb_pk tb)) D) with (pks D).
  destruct (del_primaries tb (fun _ => true) true st (pks D)) as [st1 os]. cbn [fst] in *.
  destruct X as (O1 & _ & R1). { apply Forall_forall. intros p Hp. apply in_map_iff in Hp. destruct Hp as (d & <- & _). apply pk_of_length. } { discriminate. }
  assert (R1' : forall q, R st1 q = if in_dec cells_dec q (pks D) then None else R st q).
  { intros q. rewrite R1. destruct (in_dec cells_dec q (pks os)) as [A|A], (in_dec cells_dec q (pks D)) as [B|B]; try reflexivity.
    - exfalso. apply B. apply in_map_iff in A. destruct A as (o & <- & A). apply O1 in A. tauto.
    - exfalso. apply A. apply in_map_iff in B. destruct B as (d & <- & B). apply in_map. apply O1. split; [apply in_map; exact B|].
      split; [exists 0; apply RD; exact B|reflexivity]. }
  pose proof (ins_primaries_spec tb WT Tt Tc true Il st1 WI ltac:(discriminate)) as X.
  destruct (ofold (ins_primary tb true) Il st1) as [st2|] eqn:E2.
  - destruct X as (P1 & P2 & P3). specialize (P2 eq_refl).
    assert (Ix2 : forall k, pidx st2 k = pidx st k) by (apply pidx_eq; rewrite (ins_primaries_index tb true Il st1 st2 E2); exact Ix1).
    pose proof (dml_all tb WT Tt st D Il (order all) st2 G (fun ix X => proj1 (order_In all ix) X) (order_NoDup all Nx) RD Ix2) as Y.
    destruct (ofold (dml_index tb D Il) (order all) st2) as [st3|].
    + destruct Y as (Y1 & Y2 & Y3 & Y4).
      assert (Ro : forall q, R st3 q = new_rows tb D Il st q).
      { intros q. rewrite (R_same tb st3 st2 Y1), P3. unfold new_rows. destruct (with_pk Il q); [reflexivity|apply R1']. }
      assert (Fr : forall r, In r Il -> In (pk r) (pks D) \/ R st (pk r) = None).
      { intros r Hr. specialize (P2 r Hr). rewrite R1' in P2. destruct (in_dec cells_dec (pk r) (pks D)); auto. }
      assert (Uq : forall ix r q e o, In ix all -> ix_uniq ix = true -> In r Il -> R st q = Some (e, o) -> ~ In q (pks D) -> proj r (ix_fields ix) <> proj o (ix_fields ix)).
      { intros ix r q e o Hix U Hr Ro' Nq E. destruct (Y2 ix (proj2 (order_In all ix) Hix) U) as [_ Z]. apply (uniq_key ix) in E; [|exact U].
        destruct (Z r Hr) as [(d & Hd & Ed)|Z'].
        - apply Nq. rewrite E in Ed. destruct (key_row tb WT Tt st G ix q e o (pk d) 0 d Hix Ro' (RD d Hd) Ed) as [_ ->]. apply in_map. exact Hd.
        - rewrite Ix2, E, (entry_row tb Tt st G ix q e o Hix Ro') in Z'. discriminate. }
      assert (Ap : apart Il).
      { apply apart_iff. split; [exact P1|]. intros ix Hix U. exact (proj1 (Y2 ix (proj2 (order_In all ix) Hix) U)). }
      split; [|split; [exact Ap|split; [|exact Ro]]].
      * apply (final_good tb WT Tt st st3 D Il all G RD WI P1 (incl_refl all) Ro Fr Uq); try (intros; exfalso; tauto).
        intros ix k v Hix Hk. rewrite (Y3 ix k v (proj2 (order_In all ix) Hix) Hk). unfold dml_en. rewrite Ix2. reflexivity.
      * intros r q e o Hr Ro' Nq [E|(ix & Hix & U & _ & E)].
        -- destruct (Fr r Hr) as [Z|Z]; rewrite E, (R_pk tb WT st G _ _ _ Ro') in Z; [contradiction|congruence].
        -- exact (Uq ix r q e o Hix U Hr Ro' Nq E).
    + destruct Y as (ix & Hix & Y). apply (proj1 (order_In all ix)) in Hix. intros [Ap Cl]. apply Y. intros U. split.
      * apply apart_iff in Ap. apply Ap; assumption.
      * intros r Hr. destruct (keyin_dec ix (rec_key ix r) D) as [Z|Z]; [left; exact Z|right]. rewrite Ix2.
        destruct (pidx st (rec_key ix r)) as [[e v]|] eqn:E; [|reflexivity]. exfalso.
        assert (E' : pidx st (ix_id ix, proj r (ix_fields ix), []) = Some (e, v)) by (unfold rec_key in E; rewrite U in E; exact E).
        destruct (entry_sound tb WT Tt st G ix _ _ _ _ Hix E' (fun _ => eq_refl)) as (o & Ro & Ko & _); [congruence|].
        apply (Cl r (pk o) 0 o Hr Ro).
        -- intros I. apply in_map_iff in I. destruct I as (d & Ed & I). apply Z. exists d. split; [exact I|]. rewrite <- Ko in *.
           specialize (RD d I). rewrite Ed, Ro in RD. injection RD as ->. symmetry. unfold rec_key in Ko |- *. rewrite U in *. injection Ko as ->. reflexivity.
        -- right. exists ix. unfold rec_key in Ko. injection Ko as Ko _. unfold every. auto.
  - intros [Ap Cl]. destruct X as (_ & [X|(r & Hr & X)]).
    + apply X. apply apart_iff in Ap. tauto.
    + rewrite R1' in X. destruct (in_dec cells_dec (pk r) (pks D)) as [Z|Z]; [congruence|].
      destruct (R st (pk r)) as [[e o]|] eqn:E; [|congruence]. apply (Cl r (pk r) e o Hr E Z). left. symmetry. exact (R_pk tb WT st G _ _ _ E).
Qed.

(* ---------------- keys of earlier rows ---------------- *)
Lemma kinds_kid k k' : In k (kinds tb) -> In k' (kinds tb) -> kid k = kid k' -> k = k'.
Proof.
  intros A B E. apply kinds_In in A. apply kinds_In in B. destruct k as [ix|], k' as [ix'|]; cbn in E; try discriminate; auto.
  injection E as E. f_equal. destruct WT as (_ & _ & _ & U & _). apply U; tauto.
Qed.
Lemma kinds_NoDup : NoDup (kinds tb).
Proof.
  unfold kinds. constructor.
  - intros X. apply in_map_iff in X. destruct X as (x & E & _). discriminate.
  - apply Injective_map_NoDup; [intros a b E; injection E; auto|]. apply NoDup_filter. exact Nx.
Qed.
Lemma reg_row_spec r ks : NoDup ks -> incl ks (kinds tb) -> forall reg,
  let '(reg', dup) := reg_row tb ks reg r in
  (forall e, In e reg' <-> In e reg \/ exists k, In k ks /\ e = (kid k, kkey tb k r)) /\
  (dup = true <-> exists k, In k ks /\ In (kid k, kkey tb k r) reg).
Proof.
  induction ks as [|k ks IH]; intros ND Inc reg; cbn [reg_row].
  - split; [intros e; split; [auto|intros [X|(k & [] & _)]; exact X]|]. split; [discriminate|intros (k & [] & _)].
  - inversion ND; subst. specialize (IH H2 (fun j Hj => Inc j (or_intror Hj))).
    destruct (in_dec keyset_dec (kid k, kkey tb k r) reg) as [X|X].
    + specialize (IH reg). destruct (reg_row tb ks reg r) as [reg' dup]. destruct IH as [I1 I2]. cbn [fst]. split.
      * intros e. rewrite I1. split; [intros [A|(j & A & B)]; [left; exact A|right; exists j; split; [right; exact A|exact B]]|].
        intros [A|(j & [<-|A] & ->)]; [left; exact A|left; exact X|right; exists j; auto].
      * split; [intros _; exists k; split; [left; reflexivity|exact X]|reflexivity].
    + specialize (IH ((kid k, kkey tb k r) :: reg)). destruct (reg_row tb ks _ r) as [reg' dup]. destruct IH as [I1 I2]. split.
      * intros e. rewrite I1. cbn [In]. split.
        -- intros [[A|A]|(j & A & B)]; [right; exists k; auto|left; exact A|right; exists j; split; [right; exact A|exact B]].
        -- intros [A|(j & [<-|A] & ->)]; [auto|auto|right; exists j; auto].
      * rewrite I2. split.
        -- intros (j & A & [B|B]).
           ++ exfalso. injection B as B _. apply H1. rewrite (kinds_kid k j); auto; apply Inc; [left; reflexivity|right; exact A].
           ++ exists j. split; [right; exact A|exact B].
        -- intros (j & [<-|A] & B); [contradiction|]. exists j. split; [exact A|right; exact B].
Qed.
(* reg has the keys of the rows prev *)
Definition regs (reg : keyset) (prev : list rec) : Prop :=
  forall k key, In k (kinds tb) -> (In (kid k, key) reg <-> exists o, In o prev /\ key = kkey tb k o).
Lemma regs_nil : regs [] [].
Proof. intros k key _. split; [intros []|intros (o & [] & _)]. Qed.
Lemma reg_row_step reg prev r : regs reg prev ->
  let '(reg', dup) := reg_row tb (kinds tb) reg r in
  regs reg' (r :: prev) /\ (dup = true <-> exists o, In o prev /\ clash r o).
Proof.
  intros Rg. pose proof (reg_row_spec r (kinds tb) kinds_NoDup (incl_refl _) reg) as X.
  destruct (reg_row tb (kinds tb) reg r) as [reg' dup]. destruct X as [X1 X2]. split.
  - intros k key Hk. rewrite X1, (Rg k key Hk). cbn [In]. split.
    + intros [(o & A & B)|(j & A & B)]; [exists o; auto|]. injection B as B1 B2. exists r. split; [left; reflexivity|]. rewrite (kinds_kid k j); auto.
    + intros (o & [<-|A] & ->); [right; exists k; auto|left; exists o; auto].
  - rewrite X2. split.
    + intros (k & A & B). apply (Rg k _ A) in B. destruct B as (o & Ho & E). exists o. split; [exact Ho|]. apply clash_kinds. exists k. auto.
    + intros (o & Ho & C). apply clash_kinds in C. destruct C as (k & A & B). exists k. split; [exact A|]. apply (Rg k _ A). exists o. auto.
Qed.
Lemma batch_ok_spec rs : forall reg prev, regs reg prev ->
  (batch_ok tb reg rs = true <-> apart rs /\ forall r o, In r rs -> In o prev -> ~ clash r o).
Proof.
  induction rs as [|r rs IH]; intros reg prev Rg; cbn [batch_ok].
  - split; [intros _; split; [constructor|intros r o []]|reflexivity].
  - pose proof (reg_row_step reg prev r Rg) as X. destruct (reg_row tb (kinds tb) reg r) as [reg' dup]. destruct X as [X1 X2].
    rewrite andb_true_iff, negb_true_iff, (IH reg' (r :: prev) X1). split.
    + intros (A & B & C). split.
      * constructor; [|exact B]. apply Forall_forall. intros r' Hr' Cl. apply (C r' r Hr' (or_introl eq_refl)). apply clash_sym. exact Cl.
      * intros r' o [<-|Hr'] Ho; [intros Cl; assert (dup = true) by (apply X2; exists o; auto); congruence|]. apply C; [exact Hr'|right; exact Ho].
    + intros (A & B). inversion A; subst. rewrite Forall_forall in H1. split; [|split; [assumption|]].
      * destruct dup; [|reflexivity]. exfalso. destruct (proj1 X2 eq_refl) as (o & Ho & Cl). exact (B r o (or_introl eq_refl) Ho Cl).
      * intros r' o Hr' [<-|Ho]; [intros Cl; apply (H1 r' Hr'); apply clash_sym; exact Cl|]. apply B; [right; exact Hr'|exact Ho].
Qed.
Lemma batch_apart rs : batch_ok tb [] rs = true <-> apart rs.
Proof. rewrite (batch_ok_spec rs [] [] regs_nil). split; [tauto|]. intros X. split; [exact X|]. intros r o _ []. Qed.

(* ---------------- INSERT ---------------- *)
Definition insert_stmt := ins_stmt false false.
Lemma enforced_all s r o : s_ddl s = false -> (Spec.clash tb (enforced s) r o <-> clash r o).
Proof.
  intros D. unfold Spec.clash, every. split; (intros [X|(ix & A & B & C & E)]; [left; exact X|right; exists ix; repeat split; auto]).
  unfold enforced, in_use. rewrite (Pu ix A). apply orb_true_r.
Qed.
Lemma pk_eq_full st : good st -> forall q e o, R st q = Some (e, o) -> pk o = q.
Proof. intros G q e o. apply (R_pk tb WT st G). Qed.

(* a content that agrees with its keys *)
Definition keyed (T : content) : Prop := forall q e o, T q = Some (e, o) -> pk o = q.
Lemma plain_rows s rs : s_ddl s = false -> Forall (wf_row tb) rs -> apart rs ->
  forall T : content, keyed T -> (forall r q e o, In r rs -> T q = Some (e, o) -> ~ clash r o) ->
  exists T', all_rows (insert_spec ev s 0) T rs (Does T' (Z.of_nat (length rs))) /\
    forall q, T' q = match with_pk rs q with Some r => Some (0, r) | None => T q end.
Proof.
  intros Sd. induction rs as [|r rs IH]; intros WI Ap T K Cl.
  - exists T. split; [constructor; intros q; reflexivity|reflexivity].
  - inversion WI as [|? ? W WI']; subst. inversion Ap as [|? ? Ap1 Ap2]; subst. rewrite Forall_forall in Ap1.
    set (T1 := cput T (pk r) 0 r).
    assert (K1 : keyed T1).
    { intros q e o. unfold T1, cput. destruct (cells_dec (pk r) q) as [E|N]; [intros X; injection X as _ <-; exact E|apply K]. }
    destruct (IH WI' Ap2 T1 K1) as (T' & A & B).
    { intros r' q e o Hr'. unfold T1, cput. destruct (cells_dec (pk r) q) as [E|N].
      - intros X. injection X as _ <-. intros C. apply (Ap1 r' Hr'). apply clash_sym. exact C.
      - apply Cl. right. exact Hr'. }
    exists T'. split.
    + replace (Z.of_nat (length (r :: rs))) with (1 + Z.of_nat (length rs)) by (cbn [length]; lia).
      apply (all_cons (insert_spec ev s 0) T r rs T1 1 (Does T' (Z.of_nat (length rs)))); [|exact A].
      apply ins_new; [reflexivity| |intros q; reflexivity].
      intros q e o X C. apply enforced_all in C; [|exact Sd]. exact (Cl r q e o (or_introl eq_refl) X C).
    + intros q. rewrite B. unfold Core.with_pk. cbn [find]. fold (with_pk rs q). unfold T1, cput.
      destruct (cells_dec (pk r) q) as [E|N]; [|reflexivity].
      destruct (with_pk rs q) as [r'|] eqn:X; [|reflexivity]. exfalso. apply with_pk_some in X. apply (Ap1 r' (proj1 X)). left. rewrite E. symmetry. apply X.
Qed.
Lemma plain_fails s rs : s_ddl s = false -> s_ignore s = false -> on_dup s = false -> s_replace s = false -> Forall (wf_row tb) rs ->
  forall T : content, keyed T -> (~ apart rs \/ exists r q e o, In r rs /\ T q = Some (e, o) /\ clash r o) ->
  (forall r, (exists q e o, T q = Some (e, o) /\ clash r o) \/ (forall q e o, T q = Some (e, o) -> ~ clash r o)) ->
  all_rows (insert_spec ev s 0) T rs Fails.
Proof.
  intros Sd S1 S2 S3. induction rs as [|r rs IH]; intros WI T K Bad Dec.
  - exfalso. destruct Bad as [X|(r & _ & _ & _ & [] & _)]. apply X. constructor.
  - inversion WI as [|? ? W WI']; subst. destruct (Dec r) as [(q & e & o & X & C)|Fr].
    + apply all_fail. apply (ins_dup ev s 0 T r q e o); auto. apply enforced_all; assumption.
    + set (T1 := cput T (pk r) 0 r).
      assert (Step : insert_spec ev s 0 T r (Does T1 1)).
      { apply ins_new; [reflexivity| |intros q; reflexivity]. intros q e o X C. apply enforced_all in C; [|exact Sd]. exact (Fr q e o X C). }
      apply (all_cons (insert_spec ev s 0) T r rs T1 1 Fails Step). apply IH; [exact WI'| | |].
      * intros q e o. unfold T1, cput. destruct (cells_dec (pk r) q) as [E|N]; [intros X; injection X as _ <-; exact E|apply K].
      * assert (D1 : (exists r', In r' rs /\ clash r r') \/ forall r', In r' rs -> ~ clash r r').
        { clear -GT. induction rs as [|a rs IH]; [right; intros r' []|]. destruct IH as [(r' & A & B)|N]; [left; exists r'; split; [right; exact A|exact B]|].
          destruct (clash_dec r a) as [Y|Y]; [left; exists a; split; [left; reflexivity|exact Y]|right]. intros r' [<-|A]; auto. }
        destruct D1 as [(r' & A & B)|N1].
        -- right. exists r', (pk r), 0, r. split; [exact A|]. split; [unfold T1, cput; destruct (cells_dec (pk r) (pk r)); congruence|apply clash_sym; exact B].
        -- destruct Bad as [X|(r' & q & e & o & [<-|A] & B & C)].
           ++ left. intros Y. apply X. constructor; [apply Forall_forall; exact N1|exact Y].
           ++ exfalso. exact (Fr q e o B C).
           ++ right. exists r', q, e, o. split; [exact A|]. split; [|exact C]. unfold T1, cput. destruct (cells_dec (pk r) q) as [E|N]; [|exact B].
              exfalso. apply (Fr q e o B). left. rewrite E. symmetry. exact (K q e o B).
      * intros r'. destruct (clash_dec r' r) as [Y|Y].
        -- left. exists (pk r), 0, r. split; [unfold T1, cput; destruct (cells_dec (pk r) (pk r)); congruence|exact Y].
        -- destruct (Dec r') as [(q & e & o & B & C)|N].
           ++ destruct (cells_dec (pk r) q) as [E|N]; [exfalso; apply (Fr q e o B); left; rewrite E; symmetry; exact (K q e o B)|].
              left. exists q, e, o. split; [|exact C]. unfold T1, cput. destruct (cells_dec (pk r) q); [contradiction|exact B].
           ++ right. intros q e o. unfold T1, cput. destruct (cells_dec (pk r) q); [intros X; injection X as _ <-; exact Y|apply N].
Qed.

(* the keys of the table, as a list *)
Lemma prow_dom st q v : prow st q = Some v -> In q (map fst (st_rows st)).
Proof.
  unfold prow. induction (st_rows st) as [|[q' v'] l IH]; cbn [mget map fst In]; [discriminate|].
  destruct (cells_dec q q') as [->|N]; [auto|]. intros X. right. apply IH. exact X.
Qed.
Lemma R_dom st q e o : R st q = Some (e, o) -> In q (map fst (st_rows st)).
Proof. rewrite (R_eq tb Tt). destruct (prow st q) as [[e' s]|] eqn:E; [|discriminate]. intros _. exact (prow_dom _ _ _ E). Qed.
Lemma stored_clash_dec (T : content) (sup : list (list cell)) r : (forall q e o, T q = Some (e, o) -> In q sup) ->
  (exists q e o, T q = Some (e, o) /\ clash r o) \/ (forall q e o, T q = Some (e, o) -> ~ clash r o).
Proof.
  intros S0.
  destruct (existsb (fun q => match T q with Some (_, o) => clashb r o | None => false end) sup) eqn:E.
  - left. apply existsb_exists in E. destruct E as (q & _ & X). destruct (T q) as [[e o]|] eqn:Y; [|discriminate].
    exists q, e, o. split; [exact Y|apply clashb_iff; exact X].
  - right. intros q e o X C. assert (existsb (fun q => match T q with Some (_, o) => clashb r o | None => false end) sup = true); [|congruence].
    apply existsb_exists. exists q. split; [exact (S0 q e o X)|]. rewrite X. apply clashb_iff. exact C.
Qed.

Lemma all_rows_eqc {A} (step : content -> A -> outcome -> Prop) T l T1 T2 n : eqc T1 T2 ->
  all_rows step T l (Does T1 n) -> all_rows step T l (Does T2 n).
Proof.
  intros E X. remember (Does T1 n) as out. revert T1 n Heqout T2 E. induction X as [T T' E1|T a l X|T a l T' m out X1 X2 IH]; intros T1 n Eq T2 E.
  - injection Eq as -> <-. apply all_nil. intros q. rewrite E1. apply E.
  - discriminate.
  - destruct out as [|T3 m']; [discriminate|]. injection Eq as -> <-.
    apply (all_cons step T a l T' m (Does T2 m') X1). exact (IH T1 m' eq_refl T2 E).
Qed.

Lemma run_basic_good st rs st' n : good st -> Forall (wf_row tb) rs -> run_basic tb st rs = Some (st', n) -> good st'.
Proof.
  intros G WI X. unfold run_basic in X. destruct (batch_ok tb [] rs); [|discriminate].
  pose proof (dml_spec [] rs st G ltac:(intros d []) WI) as Y. destruct (dml tb [] rs st); [|discriminate]. injection X as <- _. tauto.
Qed.
Lemma run_basic_spec st rs : good st -> Forall (wf_row tb) rs ->
  all_rows (insert_spec ev insert_stmt 0) (R st) rs (gview tb (run_basic tb st rs)).
Proof.
  intros G WI. unfold run_basic.
  assert (Fail : ~ (apart rs /\ clear_of st [] rs) -> all_rows (insert_spec ev insert_stmt 0) (R st) rs Fails).
  { intros N. apply plain_fails; auto.
    - intros q e o. apply (pk_eq_full st G).
    - destruct (batch_ok tb [] rs) eqn:B.
      + right.
        assert (D1 : (exists r q e o, In r rs /\ R st q = Some (e, o) /\ clash r o) \/ forall r, In r rs -> forall q e o, R st q = Some (e, o) -> ~ clash r o).
        { clear -GT. induction rs as [|a l IH]; [right; intros r []|]. destruct IH as [(r & q & e & o & A & B)|N].
          - left. exists r, q, e, o. split; [right; exact A|exact B].
          - destruct (stored_clash_dec (R st) (map fst (st_rows st)) a (R_dom st)) as [(q & e & o & X)|X].
            + left. exists a, q, e, o. split; [left; reflexivity|exact X].
            + right. intros r [<-|A]; [exact X|exact (N r A)]. }
        destruct D1 as [X|X]; [exact X|]. exfalso. apply N. split; [apply batch_apart; exact B|]. intros r q e o Hr Ro _. exact (X r Hr q e o Ro).
      + left. rewrite <- batch_apart. congruence.
    - intros r. apply (stored_clash_dec (R st) (map fst (st_rows st)) r (R_dom st)). }
  destruct (batch_ok tb [] rs) eqn:B.
  - pose proof (dml_spec [] rs st G ltac:(intros d []) WI) as Y. destruct (dml tb [] rs st) as [st'|]; cbn [gview]; [|exact (Fail Y)].
    destruct Y as (_ & Ap & Cl & Ro).
    destruct (plain_rows insert_stmt rs eq_refl WI Ap (R st)) as (T' & A & E).
    + intros q e o. apply (pk_eq_full st G).
    + intros r q e o Hr X. exact (Cl r q e o Hr X (fun z => z)).
    + apply (all_rows_eqc _ _ _ T'); [|exact A].
      intros q. rewrite E, Ro. unfold new_rows. destruct (with_pk rs q); [reflexivity|]. destruct (in_dec cells_dec q (pks [])) as [[]|]; reflexivity.
  - cbn [gview]. apply Fail. intros [Ap _]. apply batch_apart in Ap. congruence.
Qed.
End Stmts.
