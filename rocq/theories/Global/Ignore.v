(* What LOCK_GET brings, and INSERT IGNORE *)
From Verif.Dml Require Import Base Inv Rows.
From Verif.Global Require Import Model Spec Core Batch Stmts.
Local Open Scope Z_scope.

Section Ig.
Variable tb : table.
Hypothesis GT : good_table tb.
Notation ev := (genv tb).
Notation pk := (pk_of tb).
Notation R := (rows ev).
Notation all := (tb_indexes tb).
Notation good := (good_store tb).
Notation pks := (Core.pks tb).
Notation with_pk := (Core.with_pk tb).
Notation clash := (Spec.clash tb every).
Notation WT := (WT tb GT).
Notation Tt := (Tt tb GT).
Notation Tc := (Tc tb GT).

Section Hits.
Variable st : store.
Hypothesis G : good st.
Variable rs : list rec.
Hypothesis WI : Forall (wf_row tb) rs.

Lemma kkey_set_all ix r o : In ix all -> length r = tb_cols tb -> proj r (ix_fields ix) = proj o (ix_fields ix) ->
  proj (set_all r (ix_rest ix) (proj o (ix_rest ix))) (ix_fields ix) = proj o (ix_fields ix).
Proof.
  intros Hix L E. destruct WT as (_ & _ & X & _). destruct (X ix Hix) as (Fl & _ & _). rewrite Forall_forall in Fl.
  unfold proj in *. apply map_ext_in. intros f Hf. destruct (in_dec Nat.eq_dec f (ix_rest ix)) as [Y|Y].
  - apply fget_set_all_proj; [rewrite L; apply Fl; exact Hf|exact Y].
  - rewrite fget_set_all_out by exact Y. exact (ext_in_map E f Hf).
Qed.
Lemma get_rows_In o : In o (get_rows tb st rs) <-> exists r, In r rs /\ R st (pk r) = Some (0, o).
Proof.
  rewrite Forall_forall in WI. unfold get_rows. rewrite in_flat_map. split.
  - intros (r & Hr & X). exists r. split; [exact Hr|]. change (proj r (tb_pk tb)) with (pk r) in X. rewrite (get_primary_wf tb WT Tt st r (WI r Hr)) in X.
    destruct (R st (pk r)) as [[e o']|] eqn:E; [|inversion X]. destruct X as [->|[]]. rewrite (R_zero tb Tt st G _ _ _ E). reflexivity.
  - intros (r & Hr & X). exists r. split; [exact Hr|]. change (proj r (tb_pk tb)) with (pk r). rewrite (get_primary_wf tb WT Tt st r (WI r Hr)), X. left. reflexivity.
Qed.
Lemma hits_sound k o' : In k (kinds tb) -> In o' (hits tb st rs k) ->
  exists r o, In r rs /\ R st (pk o) = Some (0, o) /\ kkey tb k r = kkey tb k o /\ kkey tb k o' = kkey tb k o /\ pk o' = pk o /\
    length o' = tb_cols tb /\ (k = None -> o' = o).
Proof.
  intros Hk X. apply (kinds_In tb) in Hk. destruct k as [ix|]; cbn [hits] in X.
  - destruct Hk as [Hix U]. rewrite Forall_forall in WI. unfold get_entries in X. apply in_flat_map in X. destruct X as (r & Hr & X).
    unfold get_sec in X. rewrite U in X. pose proof (proj1 (WI r Hr)) as L.
    destruct (get_secondary_eq tb WT Tt st G ix r Hix U L) as [(Y & _)|(o & Y1 & Y2 & Y3 & Y4 & _)].
    + rewrite Y in X. inversion X.
    + rewrite Y3 in X. destruct X as [<-|[]]. exists r, o. cbn [kkey]. split; [exact Hr|]. split; [exact Y1|]. split; [exact Y2|].
      split; [apply kkey_set_all; assumption|]. split; [exact Y4|]. split; [rewrite set_all_length; exact L|discriminate].
  - apply get_rows_In in X. destruct X as (r & Hr & X). exists r, o'. split; [exact Hr|]. cbn [kkey].
    split; [exact (R_self tb WT Tt st G _ _ _ X)|]. split; [symmetry; exact (R_pk tb WT st G _ _ _ X)|]. repeat split; auto. exact (R_len tb st _ _ _ X).
Qed.
Lemma hits_complete k r q e o : In k (kinds tb) -> In r rs -> R st q = Some (e, o) -> kkey tb k r = kkey tb k o ->
  exists o', In o' (hits tb st rs k) /\ kkey tb k o' = kkey tb k o /\ pk o' = pk o.
Proof.
  intros Hk Hr E K. apply (kinds_In tb) in Hk. destruct k as [ix|]; cbn [hits kkey] in *.
  - destruct Hk as [Hix U]. rewrite Forall_forall in WI. pose proof (proj1 (WI r Hr)) as L.
    destruct (get_secondary_eq tb WT Tt st G ix r Hix U L) as [(_ & _ & Y)|(o2 & Y1 & Y2 & Y3 & Y4 & _)].
    + exfalso. exact (Y q e o E K).
    + rewrite Y2 in K. destruct (uniq_row tb WT Tt st G ix _ _ _ _ _ _ Hix U Y1 E K) as [-> _].
      exists (set_all r (ix_rest ix) (proj o (ix_rest ix))). split; [|split; [apply kkey_set_all; assumption|exact Y4]].
      unfold get_entries. apply in_flat_map. exists r. split; [exact Hr|]. unfold get_sec. rewrite U, Y3. left. reflexivity.
  - exists o. split; [|auto]. apply get_rows_In. exists r. split; [exact Hr|]. change (pk r = pk o) in K. rewrite K. exact (R_self tb WT Tt st G _ _ _ E).
Qed.
Lemma hit_iff r : In r rs -> (hit tb st rs r = true <-> exists q e o, R st q = Some (e, o) /\ clash r o).
Proof.
  intros Hr. unfold hit. rewrite existsb_exists. split.
  - intros (k & Hk & X). apply existsb_exists in X. destruct X as (o' & Ho & X). apply same_key_iff in X.
    destruct (hits_sound k o' Hk Ho) as (r' & o & _ & A & _ & B & _). exists (pk o), 0, o. split; [exact A|]. apply (clash_kinds tb). exists k. split; [exact Hk|congruence].
  - intros (q & e & o & A & C). apply (clash_kinds tb) in C. destruct C as (k & Hk & C). destruct (hits_complete k r q e o Hk Hr A C) as (o' & B1 & B2 & _).
    exists k. split; [exact Hk|]. apply existsb_exists. exists o'. split; [exact B1|]. apply same_key_iff. congruence.
Qed.
End Hits.

(* ---------------- writing without a check ---------------- *)
Lemma ofold_fold {A S} (f : S -> A -> option S) g l : (forall s a s', f s a = Some s' -> s' = g s a) ->
  forall s s', ofold f l s = Some s' -> s' = fold_left g l s.
Proof.
  intros E. induction l as [|a l IH]; intros s s' X; cbn [ofold fold_left] in *; [congruence|].
  destruct (f s a) as [s1|] eqn:F; [|discriminate]. rewrite (E _ _ _ F) in X. apply IH. exact X.
Qed.
Lemma put_blind_dml l st st' : dml tb [] l st = Some st' -> put_blind tb st l = st'.
Proof.
  unfold dml, dml_primary, put_blind. cbn [map del_primaries fst].
  destruct (ofold (ins_primary tb true) l st) as [st1|] eqn:E1; [|discriminate]. intros E2. symmetry.
  assert (X1 : st1 = fold_left (fun st r => put_primary ev st (proj r (tb_pk tb)) r None 0) l st).
  { revert E1. apply ofold_fold. intros s r s' X. unfold ins_primary in X. destruct (encode_pk tb r) as [p|] eqn:P; [|discriminate].
    apply encode_pk_some in P. destruct P as [P _]. change (proj r (tb_pk tb)) with (pk r). subst p.
    destruct (get_primary _ _ _ _ _); try discriminate; injection X as <-; reflexivity. }
  rewrite <- X1. revert E2. apply ofold_fold. intros s ix s'. unfold dml_index. cbn [fold_left]. apply ofold_fold.
  intros s1 r s1' X. unfold ins_index in X. destruct (get_sec _ _ _ _); try discriminate; injection X as <-; reflexivity.
Qed.
Lemma put_blind_spec l st : good st -> Forall (wf_row tb) l -> apart tb l -> clear_of tb st [] l ->
  good (put_blind tb st l) /\ forall q, R (put_blind tb st l) q = match with_pk l q with Some r => Some (0, r) | None => R st q end.
Proof.
  intros G WI Ap Cl. pose proof (dml_spec tb GT [] l st G ltac:(intros d []) WI) as X. destruct (dml tb [] l st) as [st'|] eqn:E; [|exfalso; tauto].
  rewrite (put_blind_dml _ _ _ E). destruct X as (A & _ & _ & B). split; [exact A|]. intros q. rewrite B. unfold new_rows.
  destruct (with_pk l q); [reflexivity|]. destruct (in_dec cells_dec q (pks [])) as [[]|]; reflexivity.
Qed.

(* ---------------- INSERT IGNORE ---------------- *)
Lemma fresh_incl rs : forall reg r, In r (fresh_rows tb reg rs) -> In r rs.
Proof.
  induction rs as [|a rs IH]; intros reg r; cbn [fresh_rows]; [auto|]. destruct (reg_row tb (kinds tb) reg a) as [reg' dup].
  destruct dup; [intros X; right; exact (IH _ _ X)|intros [<-|X]; [left; reflexivity|right; exact (IH _ _ X)]].
Qed.
(* the rows with no earlier row they clash with *)
Lemma fresh_spec rs : forall reg prev r, regs tb reg prev ->
  (In r (fresh_rows tb reg rs) <-> exists a b, rs = a ++ r :: b /\ forall o, In o prev \/ In o a -> ~ clash r o).
Proof.
  induction rs as [|x rs IH]; intros reg prev r Rg; cbn [fresh_rows].
  - split; [intros []|intros (a & b & E & _)]. destruct a; discriminate.
  - pose proof (reg_row_step tb GT reg prev x Rg) as X. destruct (reg_row tb (kinds tb) reg x) as [reg' dup]. destruct X as [X1 X2]. specialize (IH reg' (x :: prev) r X1).
    assert (T1 : In r (fresh_rows tb reg' rs) <-> exists a b, x :: rs = (x :: a) ++ r :: b /\ forall o, In o prev \/ In o (x :: a) -> ~ clash r o).
    { rewrite IH. split; intros (a & b & E & F); exists a, b; (split; [cbn [app] in *; congruence|]); intros o Ho; apply F; cbn [In] in *; tauto. }
    destruct dup.
    + split.
      * intros Y. apply T1 in Y. destruct Y as (a & b & Y). exists (x :: a), b. exact Y.
      * intros (a & b & E & F). destruct a as [|y a]; cbn [app] in E; injection E as E1 E2.
        -- subst r. exfalso. destruct (proj1 X2 eq_refl) as (o & Ho & C). exact (F o (or_introl Ho) C).
        -- subst y. apply T1. exists a, b. split; [cbn [app]; congruence|exact F].
    + cbn [In]. split.
      * intros [<-|Y].
        -- exists [], rs. split; [reflexivity|]. intros o [Ho|[]] C. assert (false = true) by (apply X2; exists o; auto). discriminate.
        -- apply T1 in Y. destruct Y as (a & b & Y). exists (x :: a), b. exact Y.
      * intros (a & b & E & F). destruct a as [|y a]; cbn [app] in E; injection E as E1 E2; [left; exact E1|].
        right. subst y. apply T1. exists a, b. split; [cbn [app]; congruence|exact F].
Qed.
Lemma fresh_apart rs : forall reg prev, regs tb reg prev -> apart tb (fresh_rows tb reg rs).
Proof.
  induction rs as [|x rs IH]; intros reg prev Rg; cbn [fresh_rows]; [constructor|].
  pose proof (reg_row_step tb GT reg prev x Rg) as X. destruct (reg_row tb (kinds tb) reg x) as [reg' dup]. destruct X as [X1 X2].
  destruct dup; [exact (IH _ _ X1)|]. constructor; [|exact (IH _ _ X1)]. apply Forall_forall. intros r Hr C.
  apply (fresh_spec rs reg' (x :: prev) r X1) in Hr. destruct Hr as (a & b & _ & F). apply (F x (or_introl (or_introl eq_refl))). apply clash_sym. exact C.
Qed.
Lemma fresh_all rs : forall reg prev, regs tb reg prev -> apart tb rs -> (forall r o, In r rs -> In o prev -> ~ clash r o) -> fresh_rows tb reg rs = rs.
Proof.
  induction rs as [|x rs IH]; intros reg prev Rg Ap N; cbn [fresh_rows]; [reflexivity|].
  pose proof (reg_row_step tb GT reg prev x Rg) as X. destruct (reg_row tb (kinds tb) reg x) as [reg' dup]. destruct X as [X1 X2].
  inversion Ap as [|? ? A1 A2]; subst. rewrite Forall_forall in A1. destruct dup.
  - exfalso. destruct (proj1 X2 eq_refl) as (o & Ho & C). exact (N x o (or_introl eq_refl) Ho C).
  - f_equal. apply (IH reg' (x :: prev) X1 A2). intros r o Hr [<-|Ho] C; [apply (A1 r Hr); apply clash_sym; exact C|exact (N r o (or_intror Hr) Ho C)].
Qed.
Lemma apart_filter f l : apart tb l -> apart tb (filter f l).
Proof.
  induction 1 as [|r l A B IH]; cbn [filter]; [constructor|]. destruct (f r); [|exact IH]. constructor; [|exact IH].
  apply Forall_forall. intros x Hx. apply filter_In in Hx. rewrite Forall_forall in A. apply A. apply Hx.
Qed.
Lemma no_mutual_apart rs : no_mutual_clash tb rs <-> apart tb rs.
Proof.
  unfold no_mutual_clash. split.
  - induction rs as [|r rs IH]; intros N; [constructor|]. constructor.
    + apply Forall_forall. intros r' Hr' C. apply In_nth_error in Hr'. destruct Hr' as (j & Hj). exact (N 0%nat (S j) r r' eq_refl Hj ltac:(lia) C).
    + apply IH. intros i j ri rj Hi Hj Ne. apply (N (S i) (S j)); auto.
  - induction 1 as [|r l A B IH]; intros i j ri rj Hi Hj Ne C.
    + destruct i; discriminate.
    + rewrite Forall_forall in A. destruct i as [|i], j as [|j]; cbn [nth_error] in *.
      * lia.
      * injection Hi as <-. apply nth_error_In in Hj. exact (A rj Hj C).
      * injection Hj as <-. apply nth_error_In in Hi. apply (A ri Hi). apply clash_sym. exact C.
      * exact (IH i j ri rj Hi Hj ltac:(lia) C).
Qed.

Section Run.
Variable st : store.
Hypothesis G : good st.
Variable rs : list rec.
Hypothesis WI : Forall (wf_row tb) rs.
Let sent := fresh_rows tb [] rs.
Let kept := filter (fun r => negb (hit tb st sent r)) sent.
Lemma sent_wf : Forall (wf_row tb) sent.
Proof. apply Forall_forall. intros r Hr. apply (proj1 (Forall_forall _ _) WI). exact (fresh_incl rs [] r Hr). Qed.
Lemma kept_In r : In r kept <-> In r sent /\ forall q e o, R st q = Some (e, o) -> ~ clash r o.
Proof.
  unfold kept. rewrite filter_In. split; intros [A B]; (split; [exact A|]).
  - intros q e o X C. rewrite (proj2 (hit_iff st G sent sent_wf r A)) in B by (exists q, e, o; auto). discriminate.
  - destruct (hit tb st sent r) eqn:X; [|reflexivity]. exfalso. apply (hit_iff st G sent sent_wf r A) in X. destruct X as (q & e & o & X & C). exact (B q e o X C).
Qed.
Lemma kept_wf : Forall (wf_row tb) kept.
Proof. apply Forall_forall. intros r Hr. apply (proj1 (Forall_forall _ _) sent_wf). apply kept_In in Hr. tauto. Qed.
Lemma kept_apart : apart tb kept.
Proof. apply apart_filter. exact (fresh_apart rs [] [] (regs_nil tb)). Qed.
Lemma ignore_facts : good (fst (run_ignore tb st rs)) /\
  forall q, R (fst (run_ignore tb st rs)) q = match with_pk kept q with Some r => Some (0, r) | None => R st q end.
Proof.
  unfold run_ignore. cbn [fst]. fold sent. fold kept. apply put_blind_spec; [exact G|exact kept_wf|exact kept_apart|].
  intros r q e o Hr X _. apply kept_In in Hr. exact (proj2 Hr q e o X).
Qed.
Lemma ignore_exact q e r : R (fst (run_ignore tb st rs)) q = Some (e, r) <->
  R st q = Some (e, r) \/
  (q = pk r /\ e = 0 /\ (exists a b, rs = a ++ r :: b /\ forall o, In o a -> ~ clash r o) /\ forall q' e' o, R st q' = Some (e', o) -> ~ clash r o).
Proof.
  destruct ignore_facts as [_ F]. rewrite F. destruct (with_pk kept q) as [r'|] eqn:E.
  - apply with_pk_some in E. destruct E as [E1 E2]. pose proof (proj1 (kept_In r') E1) as [K1 K2].
    assert (Nq : R st q = None).
    { destruct (R st q) as [[e' o]|] eqn:X; [|reflexivity]. exfalso. apply (K2 q e' o X). left. rewrite E2. symmetry. exact (R_pk tb WT st G _ _ _ X). }
    rewrite Nq. split.
    + intros X. injection X as <- <-. right. split; [auto|]. split; [reflexivity|]. split; [|exact K2].
      apply (fresh_spec rs [] [] r' (regs_nil tb)) in K1. destruct K1 as (a & b & A & B). exists a, b. split; [exact A|]. intros o Ho. apply B. right. exact Ho.
    + intros [X|(Eq & -> & (a & b & A & B) & C)]; [discriminate|]. do 2 f_equal.
      assert (Hr : In r kept). { apply kept_In. split; [|exact C]. apply (fresh_spec rs [] [] r (regs_nil tb)). exists a, b. split; [exact A|]. intros o [[]|Ho]. exact (B o Ho). }
      assert (ND : NoDup (pks kept)) by (apply (apart_iff tb); exact kept_apart).
      pose proof (with_pk_in tb kept r ND Hr) as Y1. pose proof (with_pk_in tb kept r' ND E1) as Y2. rewrite <- Eq in Y1. rewrite E2, Y1 in Y2. congruence.
  - apply with_pk_none in E. split; [intros X; left; exact X|]. intros [X|(Eq & -> & (a & b & A & B) & C)]; [exact X|]. exfalso. apply E. rewrite Eq. apply in_map.
    apply kept_In. split; [|exact C]. apply (fresh_spec rs [] [] r (regs_nil tb)). exists a, b. split; [exact A|]. intros o [[]|Ho]. exact (B o Ho).
Qed.
End Run.

(* rows that do not clash with one another: as SQL says *)
Lemma ignore_rows l : Forall (wf_row tb) l -> apart tb l -> forall (T : content) (hitb : rec -> bool), keyed tb T ->
  (forall r, In r l -> (hitb r = true <-> exists q e o, T q = Some (e, o) /\ clash r o)) ->
  exists T', all_rows (insert_spec ev (ins_stmt false true) 0) T l (Does T' (Z.of_nat (length (filter (fun r => negb (hitb r)) l)))) /\
    forall q, T' q = match with_pk (filter (fun r => negb (hitb r)) l) q with Some r => Some (0, r) | None => T q end.
Proof.
  induction l as [|r l IH]; intros W Ap T hitb K Hb.
  - exists T. split; [constructor; intros q; reflexivity|reflexivity].
  - inversion W as [|? ? W1 W2]; subst. inversion Ap as [|? ? A1 A2]; subst. rewrite Forall_forall in A1. cbn [filter].
    destruct (hitb r) eqn:Hr; cbn [negb].
    + destruct (IH W2 A2 T hitb K (fun x Hx => Hb x (or_intror Hx))) as (T' & X & Y). exists T'. split; [|exact Y].
      destruct (proj1 (Hb r (or_introl eq_refl)) Hr) as (q & e & o & E & C).
      change (Z.of_nat (length (filter (fun r => negb (hitb r)) l))) with (0 + Z.of_nat (length (filter (fun r => negb (hitb r)) l))).
      apply (all_cons (insert_spec ev (ins_stmt false true) 0) T r l T 0 (Does T' (Z.of_nat (length (filter (fun r => negb (hitb r)) l))))); [|exact X].
      apply (ins_ignore ev (ins_stmt false true) 0 T r T q e o); [reflexivity|reflexivity|exact E| |intros z; reflexivity]. apply (enforced_all tb GT); [reflexivity|exact C].
    + set (T1 := cput T (pk r) 0 r).
      assert (K1 : keyed tb T1). { intros q e o. unfold T1, cput. destruct (cells_dec (pk r) q) as [E|N]; [intros X; injection X as _ <-; exact E|apply K]. }
      assert (Nr : forall q e o, T q = Some (e, o) -> ~ clash r o).
      { intros q e o E C. rewrite (proj2 (Hb r (or_introl eq_refl))) in Hr by (exists q, e, o; auto). discriminate. }
      destruct (IH W2 A2 T1 hitb K1) as (T' & X & Y).
      { intros x Hx. rewrite (Hb x (or_intror Hx)). unfold T1, cput. split; intros (q & e & o & E & C); exists q, e, o; (split; [|exact C]).
        - destruct (cells_dec (pk r) q) as [Eq|N]; [|exact E]. exfalso. apply (Nr q e o E). left. rewrite Eq. symmetry. exact (K q e o E).
        - destruct (cells_dec (pk r) q) as [Eq|N]; [|exact E]. exfalso. injection E as _ <-. apply (A1 x Hx). apply clash_sym. exact C. }
      exists T'. split.
      * cbn [length]. rewrite Nat2Z.inj_succ, <- Z.add_1_l.
        apply (all_cons (insert_spec ev (ins_stmt false true) 0) T r l T1 1 (Does T' (Z.of_nat (length (filter (fun r => negb (hitb r)) l))))); [|exact X].
        apply ins_new; [reflexivity| |intros q; reflexivity]. intros q e o E C. apply (enforced_all tb GT) in C; [|reflexivity]. exact (Nr q e o E C).
      * intros q. rewrite Y. unfold Core.with_pk. cbn [find]. fold (with_pk (filter (fun r => negb (hitb r)) l) q). unfold T1, cput.
        destruct (cells_dec (pk r) q) as [E|N]; [|reflexivity].
        destruct (with_pk (filter (fun r => negb (hitb r)) l) q) as [x|] eqn:Z; [|reflexivity]. exfalso. apply with_pk_some in Z. destruct Z as [Z1 Z2]. apply filter_In in Z1.
        apply (A1 x (proj1 Z1)). left. congruence.
Qed.
Lemma run_ignore_sql st rs : good st -> Forall (wf_row tb) rs -> no_mutual_clash tb rs ->
  all_rows (insert_spec ev (ins_stmt false true) 0) (R st) rs (gview tb (Some (run_ignore tb st rs))).
Proof.
  intros G WI N. apply no_mutual_apart in N. pose proof (fresh_all rs [] [] (regs_nil tb) N ltac:(intros r o _ [])) as Fa.
  destruct (ignore_facts st G rs WI) as [_ F]. unfold gview. destruct (run_ignore tb st rs) as [st' n] eqn:E. cbn [fst] in F.
  unfold run_ignore in E. rewrite Fa in E, F. injection E as _ <-.
  destruct (ignore_rows rs WI N (R st) (hit tb st rs)) as (T' & A & B).
  - intros q e o. apply (R_pk tb WT st G).
  - intros r Hr. exact (hit_iff st G rs WI r Hr).
  - apply (all_rows_eqc _ _ _ T'); [|exact A]. intros q. rewrite B, F. reflexivity.
Qed.
End Ig.
