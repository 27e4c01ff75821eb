(* The rows a statement collides with, and REPLACE *)
From Verif.Dml Require Import Base Inv Rows.
From Verif.Global Require Import Model Spec Core Batch Stmts Ignore.
Local Open Scope Z_scope.

Section Rp.
Variable tb : table.
Hypothesis GT : good_table tb.
Notation ev := (genv tb).
Notation pk := (pk_of tb).
Notation R := (rows ev).
Notation all := (tb_indexes tb).
Notation good := (good_store tb).
Notation pks := (Core.pks tb).
Notation with_pk := (Core.with_pk tb).
Notation clash := (Spec.clash tb every).
Notation WT := (WT tb GT).
Notation Tt := (Tt tb GT).
Notation Tc := (Tc tb GT).

(* ---------------- reverse_main_table ---------------- *)
Lemma NoDup_both {A} (l l' : list A) : NoDup l -> NoDup l' -> (forall x, In x l -> ~ In x l') -> NoDup (l ++ l').
Proof.
  induction l as [|x l IH]; intros N1 N2 D; [exact N2|]. inversion N1; subst. cbn [app]. constructor.
  - rewrite in_app_iff. intros [Y|Y]; [contradiction|]. exact (D x (or_introl eq_refl) Y).
  - apply IH; auto. intros y Y. apply D. right. exact Y.
Qed.
Lemma reverse_list_spec known k os : forall seen,
  let '(l, seen') := reverse_list tb known k os seen in
  (forall k' o, In (k', o) l -> k' = k /\ In o os /\ ~ In (pk o) known /\ ~ In (pk o) seen) /\
  NoDup (pks (map snd l)) /\
  (forall p, In p seen' <-> In p seen \/ In p (pks (map snd l))) /\
  (forall o, In o os -> In (pk o) known \/ In (pk o) seen').
Proof.
  induction os as [|o os IH]; intros seen; cbn [reverse_list].
  - split; [intros k' o []|]. split; [constructor|]. split; [intros p; cbn; tauto|intros o []].
  - change (proj o (tb_pk tb)) with (pk o). destruct (in_dec cells_dec (pk o) known) as [I1|I1]; [|destruct (in_dec cells_dec (pk o) seen) as [I2|I2]].
    + specialize (IH seen). destruct (reverse_list tb known k os seen) as [l seen']. destruct IH as (A & B & C & D).
      split; [intros k' x X; destruct (A k' x X) as (X1 & X2 & X3); split; [exact X1|]; split; [right; exact X2|exact X3]|].
      split; [exact B|]. split; [exact C|]. intros x [<-|X]; [left; exact I1|exact (D x X)].
    + specialize (IH seen). destruct (reverse_list tb known k os seen) as [l seen']. destruct IH as (A & B & C & D).
      split; [intros k' x X; destruct (A k' x X) as (X1 & X2 & X3); split; [exact X1|]; split; [right; exact X2|exact X3]|].
      split; [exact B|]. split; [exact C|]. intros x [<-|X]; [right; apply C; left; exact I2|exact (D x X)].
    + specialize (IH (pk o :: seen)). destruct (reverse_list tb known k os (pk o :: seen)) as [l seen']. destruct IH as (A & B & C & D).
      split; [|split; [|split]].
      * intros k' x [X|X]; [injection X as <- <-; split; [reflexivity|]; split; [left; reflexivity|]; auto|].
        destruct (A k' x X) as (X1 & X2 & X3 & X4). split; [exact X1|]. split; [right; exact X2|]. split; [exact X3|]. intros Y. apply X4. right. exact Y.
      * cbn [map snd Core.pks]. constructor; [|exact B]. intros X. apply in_map_iff in X. destruct X as (x & E & X). apply in_map_iff in X. destruct X as ([k' x'] & E' & X). cbn [snd] in E'. subst x'.
        destruct (A k' x X) as (_ & _ & _ & X4). apply X4. left. symmetry. exact E.
      * intros p. rewrite C. cbn [map snd Core.pks In]. tauto.
      * intros x [<-|X]; [right; apply C; left; left; reflexivity|exact (D x X)].
Qed.
Lemma reverse_all_spec st rs known ks : forall seen,
  let L := reverse_all tb st rs known ks seen in
  (forall k o, In (k, o) L -> (exists ix, k = Some ix) /\ In k ks /\ In o (hits tb st rs k) /\ ~ In (pk o) known /\ ~ In (pk o) seen) /\
  NoDup (pks (map snd L)) /\
  (forall ix o, In (Some ix) ks -> In o (hits tb st rs (Some ix)) -> In (pk o) known \/ In (pk o) seen \/ In (pk o) (pks (map snd L))).
Proof.
  induction ks as [|[ix|] ks IH]; intros seen; cbn [reverse_all]; cbv zeta.
  - split; [intros k o []|]. split; [constructor|intros ix o []].
  - pose proof (reverse_list_spec known (Some ix) (hits tb st rs (Some ix)) seen) as X.
    destruct (reverse_list tb known (Some ix) (hits tb st rs (Some ix)) seen) as [l seen']. destruct X as (A & B & C & D).
    specialize (IH seen'). cbv zeta in IH. destruct IH as (A' & B' & C'). split; [|split].
    + intros k o X. apply in_app_iff in X. destruct X as [X|X].
      * destruct (A k o X) as (-> & X2 & X3 & X4). split; [exists ix; reflexivity|]. split; [left; reflexivity|auto].
      * destruct (A' k o X) as (X1 & X2 & X3 & X4 & X5). split; [exact X1|]. split; [right; exact X2|]. split; [exact X3|]. split; [exact X4|]. intros Y. apply X5. apply C. left. exact Y.
    + rewrite map_app. unfold Core.pks in *. rewrite map_app. apply NoDup_both; [exact B|exact B'|]. intros p P1 P2.
      apply in_map_iff in P2. destruct P2 as (o & <- & P2). apply in_map_iff in P2. destruct P2 as ([k o'] & E & P2). cbn [snd] in E. subst o'.
      destruct (A' k o P2) as (_ & _ & _ & _ & X). apply X. apply C. right. exact P1.
    + intros ix' o [E|X] Ho; rewrite map_app; unfold Core.pks in *; rewrite map_app, in_app_iff.
      * injection E as ->. destruct (D o Ho) as [Y|Y]; [auto|]. apply C in Y. tauto.
      * destruct (C' ix' o X Ho) as [Y|[Y|Y]]; [auto| |auto]. apply C in Y. tauto.
  - specialize (IH seen). cbv zeta in IH. destruct IH as (A & B & C). split; [|split; [exact B|]].
    + intros k o X. destruct (A k o X) as (X1 & X2 & X3). split; [exact X1|]. split; [right; exact X2|exact X3].
    + intros ix o [X|X]; [discriminate|exact (C ix o X)].
Qed.

Section Store.
Variable st : store.
Hypothesis G : good st.
Variable rs : list rec.
Hypothesis WI : Forall (wf_row tb) rs.
Notation direct := (get_rows tb st rs).
Notation rev := (reversed tb st rs).

Lemma rev_spec :
  (forall k o, In (k, o) rev -> (exists ix, k = Some ix) /\ In k (kinds tb) /\ In o (hits tb st rs k) /\ ~ In (pk o) (pks direct)) /\
  NoDup (pks (map snd rev)) /\
  (forall k o, In k (kinds tb) -> In o (hits tb st rs k) -> In (pk o) (pks direct) \/ In (pk o) (pks (map snd rev))).
Proof.
  destruct (reverse_all_spec st rs (pks direct) (kinds tb) []) as (A & B & C). cbv zeta in *. split; [|split; [exact B|]].
  - intros k o X. destruct (A k o X) as (X1 & X2 & X3 & X4 & _). auto.
  - intros [ix|] o Hk Ho; [|left; apply in_map; exact Ho]. destruct (C ix o Hk Ho) as [Y|[[]|Y]]; auto.
Qed.
Lemma get_known_spec l : (forall o', In o' l -> length o' = tb_cols tb /\ exists o, R st (pk o) = Some (0, o) /\ pk o' = pk o) ->
  exists os, get_known tb st l = Some os /\ pks os = pks l /\ forall o, In o os -> R st (pk o) = Some (0, o).
Proof.
  induction l as [|o' l IH]; intros W.
  - exists []. split; [reflexivity|]. split; [reflexivity|intros o []].
  - destruct (IH (fun x X => W x (or_intror X))) as (os & A & B & C). destruct (W o' (or_introl eq_refl)) as (L & o & E & P).
    exists (o :: os). cbn [get_known]. change (proj o' (tb_pk tb)) with (pk o'). rewrite (get_primary_eq tb WT Tt st o' L), P, E, A. split; [reflexivity|].
    split; [cbn [Core.pks map]; rewrite P; f_equal; exact B|]. intros x [<-|X]; [exact E|exact (C x X)].
Qed.
Lemma store_rows_spec : exists pri, store_rows tb st rs = Some pri /\
  (forall o, In o pri <-> R st (pk o) = Some (0, o) /\ exists r, In r rs /\ clash r o) /\
  (exists os, pri = direct ++ os /\ pks os = pks (map snd rev)).
Proof.
  destruct rev_spec as (A & B & C).
  destruct (get_known_spec (map snd rev)) as (os & K1 & K2 & K3).
  { intros o' X. apply in_map_iff in X. destruct X as ([k o] & E & X). cbn [snd] in E. subst o'. destruct (A k o X) as (_ & X2 & X3 & _).
    destruct (hits_sound tb GT st G rs WI k o X2 X3) as (r & o2 & _ & Y1 & _ & _ & Y2 & Y3 & _). split; [exact Y3|]. exists o2. auto. }
  exists (direct ++ os). split; [unfold store_rows; rewrite K1; reflexivity|]. split; [|exists os; auto].
  intros o. rewrite in_app_iff. split.
  - intros [X|X].
    + destruct (hits_sound tb GT st G rs WI None o (or_introl eq_refl) X) as (r & o2 & Hr & Y1 & Y2 & _ & _ & _ & Y3). rewrite (Y3 eq_refl).
      split; [exact Y1|]. exists r. split; [exact Hr|]. left. exact Y2.
    + split; [exact (K3 o X)|]. assert (P : In (pk o) (pks (map snd rev))) by (rewrite <- K2; apply in_map; exact X).
      apply in_map_iff in P. destruct P as (o' & E & P). apply in_map_iff in P. destruct P as ([k o2] & E2 & P). cbn [snd] in E2. subst o2. destruct (A k o' P) as (_ & X2 & X3 & _).
      destruct (hits_sound tb GT st G rs WI k o' X2 X3) as (r & o2 & Hr & Y1 & Y2 & _ & Y3 & _). exists r. split; [exact Hr|].
      assert (o2 = o). { rewrite Y3 in E. pose proof (K3 o X) as Z. rewrite <- E, Y1 in Z. congruence. } subst o2. apply (clash_kinds tb). exists k. auto.
  - intros (X & r & Hr & Cl). apply (clash_kinds tb) in Cl. destruct Cl as (k & Hk & E).
    destruct (hits_complete tb GT st G rs WI k r (pk o) 0 o Hk Hr X E) as (o' & Y1 & _ & Y2).
    destruct (C k o' Hk Y1) as [Y|Y]; rewrite Y2 in Y.
    + left. apply in_map_iff in Y. destruct Y as (d & E' & Y). assert (d = o); [|subst; exact Y].
      destruct (hits_sound tb GT st G rs WI None d (or_introl eq_refl) Y) as (_ & o2 & _ & Z1 & _ & _ & _ & _ & Z2). rewrite <- (Z2 eq_refl), E', X in Z1. congruence.
    + right. rewrite <- K2 in Y. apply in_map_iff in Y. destruct Y as (d & E' & Y). pose proof (K3 d Y) as Z. rewrite E', X in Z. assert (d = o) by congruence. subst. exact Y.
Qed.
End Store.

(* ---------------- the rows REPLACE keeps ---------------- *)
Fixpoint keepers (rs : list rec) : list rec :=
  match rs with [] => [] | r :: rs' => if existsb (clashb tb r) rs' then keepers rs' else r :: keepers rs' end.
Lemma existsb_clash r l : existsb (clashb tb r) l = true <-> exists x, In x l /\ clash r x.
Proof. rewrite existsb_exists. split; intros (x & A & B); exists x; (split; [exact A|]); apply clashb_iff; exact B. Qed.
Lemma keepers_incl rs r : In r (keepers rs) -> In r rs.
Proof. induction rs as [|a rs IH]; cbn [keepers]; [auto|]. destruct (existsb (clashb tb a) rs); [intros X; right; auto|intros [<-|X]; [left; reflexivity|right; auto]]. Qed.
Lemma keepers_apart rs : apart tb (keepers rs).
Proof.
  induction rs as [|r rs IH]; cbn [keepers]; [constructor|]. destruct (existsb (clashb tb r) rs) eqn:E; [exact IH|]. constructor; [|exact IH].
  apply Forall_forall. intros x Hx C. assert (existsb (clashb tb r) rs = true); [|congruence]. apply existsb_clash. exists x. split; [exact (keepers_incl _ _ Hx)|exact C].
Qed.
Lemma keepers_In rs r : In r (keepers rs) <-> exists i, nth_error rs i = Some r /\ forall j x, (i < j)%nat -> nth_error rs j = Some x -> ~ clash r x.
Proof.
  induction rs as [|a rs IH]; cbn [keepers].
  - split; [intros []|intros (i & E & _); destruct i; discriminate].
  - assert (T1 : In r (keepers rs) <-> exists i, nth_error (a :: rs) (S i) = Some r /\ forall j x, (S i < j)%nat -> nth_error (a :: rs) j = Some x -> ~ clash r x).
    { rewrite IH. split; intros (i & E & F); exists i; (split; [exact E|]).
      - intros [|j] x L X; [lia|]. apply (F j x); [lia|exact X].
      - intros j x L X. apply (F (S j) x); [lia|exact X]. }
    destruct (existsb (clashb tb a) rs) eqn:Ex.
    + rewrite T1. split; [intros (i & X); exists (S i); exact X|]. intros ([|i] & E & F); [|exists i; auto]. cbn in E. injection E as ->. exfalso.
      apply existsb_clash in Ex. destruct Ex as (x & Hx & C). apply In_nth_error in Hx. destruct Hx as (j & Hj). exact (F (S j) x ltac:(lia) Hj C).
    + cbn [In]. rewrite T1. split.
      * intros [<-|(i & X)]; [|exists (S i); exact X]. exists 0%nat. split; [reflexivity|]. intros [|j] x L X C; [lia|].
        assert (existsb (clashb tb a) rs = true); [|congruence]. apply existsb_clash. exists x. split; [exact (nth_error_In rs j X)|exact C].
      * intros ([|i] & E & F); [left; cbn in E; congruence|right; exists i; auto].
Qed.
Lemma keepers_all rs : apart tb rs -> keepers rs = rs.
Proof.
  induction 1 as [|r l A B IH]; cbn [keepers]; [reflexivity|]. rewrite IH. destruct (existsb (clashb tb r) l) eqn:E; [|reflexivity]. exfalso.
  apply existsb_clash in E. destruct E as (x & Hx & C). rewrite Forall_forall in A. exact (A x Hx C).
Qed.

(* ---------------- REPLACE row by row ---------------- *)
Definition hitby (rs : list rec) (v : option (Z * rec)) : bool := match v with Some (_, o) => existsb (fun r => clashb tb r o) rs | None => false end.
Definition replaced (T : content) (rs : list rec) : content := fun q =>
  match with_pk (keepers rs) q with Some r => Some (0, r) | None => if hitby rs (T q) then None else T q end.
Notation rstmt := (ins_stmt true false).
Lemma replace_one (T : content) sup r : keyed tb T -> (forall q e o, T q = Some (e, o) -> In q sup) ->
  exists n, insert_spec ev rstmt 0 T r (Does (cput (fun q => if hitby [r] (T q) then None else T q) (pk r) 0 r) n).
Proof.
  intros K S0. set (qs := nodup cells_dec (filter (fun q => hitby [r] (T q)) sup)).
  assert (Q : forall q, In q qs <-> hitby [r] (T q) = true).
  { intros q. unfold qs. rewrite nodup_In, filter_In. split; [tauto|]. intros X. split; [|exact X]. unfold hitby in X. destruct (T q) as [[e o]|] eqn:E; [|discriminate]. exact (S0 q e o E). }
  exists (1 + Z.of_nat (length qs)). apply (ins_replace ev rstmt 0 T r _ qs); try reflexivity.
  - apply NoDup_nodup.
  - intros q. rewrite Q. unfold hitby. split.
    + destruct (T q) as [[e o]|]; [|discriminate]. cbn [existsb]. rewrite orb_false_r. intros X. exists e, o. split; [reflexivity|]. apply (enforced_all tb GT); [reflexivity|]. apply clashb_iff. exact X.
    + intros (e & o & E & C). rewrite E. cbn [existsb]. rewrite orb_false_r. apply clashb_iff. apply (enforced_all tb GT) in C; [exact C|reflexivity].
  - intros q. unfold cput. cbn [genv e_tb]. destruct (cells_dec (pk r) q); [reflexivity|]. destruct (in_dec cells_dec q qs) as [X|X]; rewrite Q in X; destruct (hitby [r] (T q)); congruence.
Qed.
Lemma with_pk_cons r l q : with_pk (r :: l) q = if cells_dec (pk r) q then Some r else with_pk l q.
Proof. unfold Core.with_pk. cbn [find]. destruct (cells_dec (pk r) q); reflexivity. Qed.
Lemma replace_step T r rs : keyed tb T ->
  eqc (replaced (cput (fun q => if hitby [r] (T q) then None else T q) (pk r) 0 r) rs) (replaced T (r :: rs)).
Proof.
  intros K q. unfold replaced, cput. cbn [keepers].
  assert (Hq : hitby (r :: rs) (T q) = hitby [r] (T q) || hitby rs (T q)).
  { unfold hitby. destruct (T q) as [[e o]|]; [|reflexivity]. cbn [existsb]. rewrite orb_false_r. reflexivity. }
  destruct (existsb (clashb tb r) rs) eqn:Ex.
  - destruct (with_pk (keepers rs) q); [reflexivity|]. destruct (cells_dec (pk r) q) as [E|N].
    + assert (X : hitby rs (Some (0, r)) = true).
      { apply existsb_clash in Ex. destruct Ex as (x & Hx & C). unfold hitby. apply existsb_exists. exists x. split; [exact Hx|]. apply clashb_iff. apply clash_sym. exact C. }
      rewrite X. destruct (T q) as [[e o]|] eqn:Tq; [|reflexivity]. rewrite Hq. unfold hitby at 1. cbn [existsb].
      assert (Y : clashb tb r o = true) by (apply clashb_iff; left; rewrite (K q e o Tq); exact E). rewrite Y. reflexivity.
    + rewrite Hq. destruct (hitby [r] (T q)) eqn:H1; cbn [orb]; [reflexivity|reflexivity].
  - rewrite with_pk_cons. destruct (cells_dec (pk r) q) as [E|N].
    + assert (X : with_pk (keepers rs) q = None).
      { apply with_pk_none. intros Y. apply in_map_iff in Y. destruct Y as (x & Ex' & Y). assert (existsb (clashb tb r) rs = true); [|congruence].
        apply existsb_clash. exists x. split; [exact (keepers_incl _ _ Y)|]. left. congruence. }
      rewrite X. assert (Z : hitby rs (Some (0, r)) = false).
      { destruct (hitby rs (Some (0, r))) eqn:Z; [|reflexivity]. exfalso. unfold hitby in Z. apply existsb_exists in Z. destruct Z as (x & Hx & C). apply clashb_iff in C.
        assert (existsb (clashb tb r) rs = true); [|congruence]. apply existsb_clash. exists x. split; [exact Hx|apply clash_sym; exact C]. }
      rewrite Z. reflexivity.
    + destruct (with_pk (keepers rs) q); [reflexivity|]. rewrite Hq. destruct (hitby [r] (T q)) eqn:H1; cbn [orb]; reflexivity.
Qed.
Lemma keyed_step T r : keyed tb T -> keyed tb (cput (fun q => if hitby [r] (T q) then None else T q) (pk r) 0 r).
Proof.
  intros K q e o. unfold cput. destruct (cells_dec (pk r) q) as [E|N]; [intros X; injection X as _ <-; exact E|]. destruct (hitby [r] (T q)); [discriminate|apply K].
Qed.
Lemma replace_rows rs : forall (T : content) sup, keyed tb T -> (forall q e o, T q = Some (e, o) -> In q sup) ->
  exists n, all_rows (insert_spec ev rstmt 0) T rs (Does (replaced T rs) n).
Proof.
  induction rs as [|r rs IH]; intros T sup K S0.
  - exists 0. apply all_nil. intros q. unfold replaced. cbn [keepers Core.with_pk find]. unfold hitby. destruct (T q) as [[e o]|]; reflexivity.
  - set (T1 := cput (fun q => if hitby [r] (T q) then None else T q) (pk r) 0 r). destruct (replace_one T sup r K S0) as (n & St). fold T1 in St.
    destruct (IH T1 (pk r :: sup)) as (m & X).
    + apply keyed_step. exact K.
    + intros q e o. unfold T1, cput. destruct (cells_dec (pk r) q) as [<-|N]; [intros _; left; reflexivity|]. destruct (hitby [r] (T q)); [discriminate|]. intros X. right. exact (S0 q e o X).
    + exists (n + m). apply (all_cons (insert_spec ev rstmt 0) T r rs T1 n (Does (replaced T (r :: rs)) m) St).
      apply (all_rows_eqc _ _ _ (replaced T1 rs)); [apply replace_step; exact K|exact X].
Qed.
(* the count, when the rows do not clash with one another *)
Lemma replace_count rs : apart tb rs -> forall (T : content) Q, keyed tb T -> NoDup Q ->
  (forall q, In q Q <-> hitby rs (T q) = true) ->
  all_rows (insert_spec ev rstmt 0) T rs (Does (replaced T rs) (Z.of_nat (length rs) + Z.of_nat (length Q))).
Proof.
  induction rs as [|r rs IH]; intros Ap T Q K ND HQ.
  - assert (Q = []) as -> by (destruct Q as [|q Q]; [reflexivity|exfalso; pose proof (proj1 (HQ q) (or_introl eq_refl)) as X; unfold hitby in X; destruct (T q) as [[e o]|]; discriminate]).
    apply all_nil. intros q. unfold replaced. cbn [keepers Core.with_pk find]. unfold hitby. destruct (T q) as [[e o]|]; reflexivity.
  - inversion Ap as [|? ? A1 A2]; subst. rewrite Forall_forall in A1.
    set (T1 := cput (fun q => if hitby [r] (T q) then None else T q) (pk r) 0 r).
    set (Q1 := filter (fun q => hitby [r] (T q)) Q). set (Q2 := filter (fun q => negb (hitby [r] (T q))) Q).
    assert (Len : (length Q = length Q1 + length Q2)%nat).
    { unfold Q1, Q2. clear. induction Q as [|q Q IH]; cbn [filter]; [reflexivity|]. destruct (hitby [r] (T q)); cbn [negb length]; lia. }
    assert (Hr : forall q, hitby (r :: rs) (T q) = hitby [r] (T q) || hitby rs (T q)).
    { intros q. unfold hitby. destruct (T q) as [[e o]|]; [|reflexivity]. cbn [existsb]. rewrite orb_false_r. reflexivity. }
    assert (St : insert_spec ev rstmt 0 T r (Does T1 (1 + Z.of_nat (length Q1)))).
    { apply (ins_replace ev rstmt 0 T r T1 Q1); try reflexivity.
      - apply NoDup_filter. exact ND.
      - intros q. unfold Q1. rewrite filter_In, HQ, Hr. unfold hitby at 1 3. destruct (T q) as [[e o]|] eqn:E.
        + cbn [existsb]. rewrite orb_false_r. split.
          * intros [_ X]. exists e, o. split; [reflexivity|]. apply (enforced_all tb GT); [reflexivity|]. apply clashb_iff. exact X.
          * intros (e' & o' & E' & C). injection E' as <- <-. apply (enforced_all tb GT) in C; [|reflexivity]. apply clashb_iff in C. rewrite C. auto.
        + split; [intros [_ X]; discriminate|intros (e & o & X & _); discriminate].
      - intros q. unfold T1, cput. cbn [genv e_tb]. destruct (cells_dec (pk r) q); [reflexivity|]. destruct (in_dec cells_dec q Q1) as [X|X]; unfold Q1 in X; rewrite filter_In in X.
        + destruct X as [_ X]. rewrite X. reflexivity.
        + destruct (hitby [r] (T q)) eqn:Y; [|reflexivity]. exfalso. apply X. split; [|reflexivity]. apply HQ. rewrite Hr, Y. reflexivity. }
    assert (X : all_rows (insert_spec ev rstmt 0) T1 rs (Does (replaced T1 rs) (Z.of_nat (length rs) + Z.of_nat (length Q2)))).
    { apply (IH A2 T1 Q2); [apply keyed_step; exact K|apply NoDup_filter; exact ND|].
      intros q. unfold Q2. rewrite filter_In, HQ, Hr. unfold T1, cput. destruct (cells_dec (pk r) q) as [E|N].
      - assert (Z : hitby rs (Some (0, r)) = false).
        { destruct (hitby rs (Some (0, r))) eqn:Z; [|reflexivity]. exfalso. unfold hitby in Z. apply existsb_exists in Z. destruct Z as (x & Hx & C). apply clashb_iff in C. apply (A1 x Hx). apply clash_sym. exact C. }
        rewrite Z. split; [|discriminate]. intros [Y1 Y2]. exfalso. destruct (T q) as [[e o]|] eqn:Tq; [|discriminate].
        assert (Y : hitby [r] (Some (e, o)) = true). { unfold hitby. cbn [existsb]. rewrite orb_false_r. apply clashb_iff. left. rewrite (K q e o Tq). exact E. }
        rewrite Y in Y2. discriminate.
      - destruct (hitby [r] (T q)) eqn:Y; cbn [negb orb]; [split; [intros [_ Z]; discriminate|discriminate]|tauto]. }
    replace (Z.of_nat (length (r :: rs)) + Z.of_nat (length Q)) with ((1 + Z.of_nat (length Q1)) + (Z.of_nat (length rs) + Z.of_nat (length Q2))) by (cbn [length]; lia).
    apply (all_cons (insert_spec ev rstmt 0) T r rs T1 _ (Does (replaced T (r :: rs)) (Z.of_nat (length rs) + Z.of_nat (length Q2))) St).
    apply (all_rows_eqc _ _ _ (replaced T1 rs)); [apply replace_step; exact K|exact X].
Qed.

(* ---------------- the ids REPLACE drops ---------------- *)
Lemma erase_In i j ids : In j (erase i ids) <-> In j ids /\ j <> i.
Proof. unfold erase. rewrite filter_In, negb_true_iff, Nat.eqb_neq. tauto. Qed.
Lemma drop_ids_spec w is : forall a, NoDup (fst a) ->
  NoDup (fst (drop_ids w is a)) /\ forall j, In j (fst (drop_ids w is a)) <-> In j (fst a) /\ ~ In j is.
Proof.
  unfold drop_ids. induction is as [|i is IH]; intros [ids n] ND; cbn [fold_left fst] in *.
  - split; [exact ND|]. intros j. cbn [In]. tauto.
  - destruct (memb i ids) eqn:M.
    + destruct (IH (erase i ids, n + w)) as [A B]; [apply NoDup_filter; exact ND|]. cbn [fst] in *. split; [exact A|]. intros j. rewrite B, erase_In. cbn [In]. intuition congruence.
    + destruct (IH (ids, n) ND) as [A B]. cbn [fst] in *. split; [exact A|]. intros j. rewrite B. cbn [In]. split; [|tauto]. intros [X Y]. split; [exact X|]. intros [<-|Z]; [|contradiction].
      apply memb_In in X. congruence.
Qed.
Lemma drop_many {A} w (f : A -> list nat) (l : list A) : forall a, NoDup (fst a) ->
  NoDup (fst (fold_left (fun a o => drop_ids w (f o) a) l a)) /\
  forall j, In j (fst (fold_left (fun a o => drop_ids w (f o) a) l a)) <-> In j (fst a) /\ ~ exists o, In o l /\ In j (f o).
Proof.
  induction l as [|o l IH]; intros a ND; cbn [fold_left].
  - split; [exact ND|]. intros j. split; [intros X; split; [exact X|intros (o & [] & _)]|tauto].
  - destruct (drop_ids_spec w (f o) a ND) as [A1 B1]. destruct (IH _ A1) as [A2 B2]. split; [exact A2|]. intros j. rewrite B2, B1. split.
    + intros [[X Y] Z]. split; [exact X|]. intros (x & [<-|Hx] & W); [contradiction|]. apply Z. exists x. auto.
    + intros [X Y]. split; [split; [exact X|]|].
      * intros Z. apply Y. exists o. split; [left; reflexivity|exact Z].
      * intros (x & Hx & W). apply Y. exists x. split; [right; exact Hx|exact W].
Qed.
Lemma removelast_filter (P : nat -> bool) n : forall a j,
  In j (removelast (filter P (seq a n))) <-> (a <= j < a + n)%nat /\ P j = true /\ exists j', (j < j' < a + n)%nat /\ P j' = true.
Proof.
  induction n as [|n IH]; intros a j; cbn [seq filter].
  - split; [intros []|lia].
  - specialize (IH (S a) j). destruct (P a) eqn:Pa.
    + destruct (filter P (seq (S a) n)) as [|x l] eqn:F.
      * cbn [removelast]. split; [intros []|]. intros (Lq & _ & j' & Lj & Pj). exfalso.
        assert (In j' (filter P (seq (S a) n))) as Y by (apply filter_In; split; [apply in_seq; lia|exact Pj]). rewrite F in Y. exact Y.
      * change (removelast (a :: x :: l)) with (a :: removelast (x :: l)). cbn [In]. rewrite IH. split.
        -- intros [<-|(A & B & j' & C & D)].
           ++ split; [lia|]. split; [exact Pa|]. assert (Y : In x (filter P (seq (S a) n))) by (rewrite F; left; reflexivity). apply filter_In in Y. destruct Y as [Y1 Y2]. apply in_seq in Y1. exists x. split; [lia|exact Y2].
           ++ split; [lia|]. split; [exact B|]. exists j'. split; [lia|exact D].
        -- intros (A & B & j' & C & D). destruct (Nat.eq_dec a j) as [->|Ne]; [left; reflexivity|right]. split; [lia|]. split; [exact B|]. exists j'. split; [lia|exact D].
    + rewrite IH. split; intros (A & B & j' & C & D); (split; [|split; [exact B|exists j'; split; [lia|exact D]]]); [lia|].
      destruct (Nat.eq_dec a j) as [->|Ne]; [congruence|lia].
Qed.
Lemma last_ids k rs key j : In j (removelast (ids_of tb k rs key)) <->
  (j < length rs)%nat /\ kkey tb k (row_at rs j) = key /\ exists j', (j < j' < length rs)%nat /\ kkey tb k (row_at rs j') = key.
Proof.
  unfold ids_of. rewrite removelast_filter. cbn [Nat.add]. split.
  - intros (A & B & j' & C & D). destruct (cells_dec (kkey tb k (row_at rs j)) key); [|discriminate]. destruct (cells_dec (kkey tb k (row_at rs j')) key); [|discriminate].
    split; [lia|]. split; [assumption|]. exists j'. auto.
  - intros (A & B & j' & C & D). split; [lia|]. split; [destruct (cells_dec (kkey tb k (row_at rs j)) key); congruence|]. exists j'. split; [exact C|]. destruct (cells_dec (kkey tb k (row_at rs j')) key); congruence.
Qed.
Definition later (k : kind) (rs : list rec) (j : nat) : Prop := exists j', (j < j' < length rs)%nat /\ kkey tb k (row_at rs j) = kkey tb k (row_at rs j').
Lemma replace_kind_spec rs ret a k : NoDup (fst a) -> (forall j, In j (fst a) -> (j < length rs)%nat) ->
  NoDup (fst (replace_kind tb rs ret a k)) /\ forall j, In j (fst (replace_kind tb rs ret a k)) <-> In j (fst a) /\ ~ later k rs j.
Proof.
  intros ND Bd. unfold replace_kind.
  destruct (drop_many 1 (fun o => removelast (ids_of tb k rs (kkey tb k o))) (ret k) a ND) as [A1 B1].
  destruct (drop_many 2 (fun r => removelast (ids_of tb k rs (kkey tb k r))) rs _ A1) as [A2 B2]. split; [exact A2|]. intros j. rewrite B2, B1. split.
  - intros [[X _] Y]. split; [exact X|]. intros (j' & L & E). apply Y. exists (row_at rs j). split; [apply nth_In; exact (Bd j X)|]. apply last_ids. split; [exact (Bd j X)|]. split; [reflexivity|]. exists j'. auto.
  - intros [X Y].
    assert (Z : forall key, ~ In j (removelast (ids_of tb k rs key))). { intros key Z. apply last_ids in Z. destruct Z as (_ & E & j' & L & E'). apply Y. exists j'. split; [exact L|congruence]. }
    split; [split; [exact X|]|]; intros (o & _ & W); exact (Z _ W).
Qed.
Lemma replace_kinds_spec rs ret ks : forall a, NoDup (fst a) -> (forall j, In j (fst a) -> (j < length rs)%nat) ->
  NoDup (fst (fold_left (replace_kind tb rs ret) ks a)) /\
  forall j, In j (fst (fold_left (replace_kind tb rs ret) ks a)) <-> In j (fst a) /\ forall k, In k ks -> ~ later k rs j.
Proof.
  induction ks as [|k ks IH]; intros a ND Bd; cbn [fold_left].
  - split; [exact ND|]. intros j. split; [intros X; split; [exact X|intros k []]|tauto].
  - destruct (replace_kind_spec rs ret a k ND Bd) as [A1 B1]. destruct (IH _ A1) as [A2 B2]; [intros j X; apply B1 in X; apply Bd; tauto|]. split; [exact A2|]. intros j. rewrite B2, B1. split.
    + intros [[X Y] Z]. split; [exact X|]. intros k' [<-|Hk]; auto.
    + intros [X Y]. split; [split; [exact X|apply Y; left; reflexivity]|]. intros k' Hk. apply Y. right. exact Hk.
Qed.
Lemma replace_kinds_none rs ret ks a : apart tb rs -> incl ks (kinds tb) -> fold_left (replace_kind tb rs ret) ks a = a.
Proof.
  intros Ap. apply (no_mutual_apart tb) in Ap. revert a. induction ks as [|k ks IH]; intros a Inc; cbn [fold_left]; [reflexivity|].
  assert (Z : forall key, removelast (ids_of tb k rs key) = []).
  { intros key. destruct (removelast (ids_of tb k rs key)) as [|j l] eqn:E; [reflexivity|]. exfalso. assert (X : In j (removelast (ids_of tb k rs key))) by (rewrite E; left; reflexivity).
    apply last_ids in X. destruct X as (L & E1 & j' & L' & E2). apply (Ap j j' (row_at rs j) (row_at rs j')); try (apply nth_error_nth'; lia); [lia|].
    apply (clash_kinds tb). exists k. split; [apply Inc; left; reflexivity|congruence]. }
  assert (F : forall {A} w (g : A -> list cell) (l : list A) b, fold_left (fun a o => drop_ids w (removelast (ids_of tb k rs (g o))) a) l b = b).
  { intros A w g l. induction l as [|x l IHl]; intros b; cbn [fold_left]; [reflexivity|]. rewrite IHl, Z. reflexivity. }
  assert (E : replace_kind tb rs ret a k = a) by (unfold replace_kind; rewrite !F; reflexivity). rewrite E. apply IH. intros x X. apply Inc. right. exact X.
Qed.

(* ---------------- REPLACE ---------------- *)
Lemma with_pk_iff l q r : NoDup (pks l) -> (with_pk l q = Some r <-> In r l /\ pk r = q).
Proof. intros ND. split; [apply with_pk_some|]. intros [A <-]. apply with_pk_in; assumption. Qed.
Lemma with_pk_same l l' q : NoDup (pks l) -> NoDup (pks l') -> (forall r, In r l <-> In r l') -> with_pk l q = with_pk l' q.
Proof.
  intros N1 N2 E. destruct (with_pk l q) as [r|] eqn:X.
  - symmetry. apply with_pk_iff; [exact N2|]. apply with_pk_iff in X; [|exact N1]. rewrite <- E. exact X.
  - destruct (with_pk l' q) as [r|] eqn:Y; [|reflexivity]. apply with_pk_iff in Y; [|exact N2]. rewrite <- E in Y. apply (with_pk_iff l q r N1) in Y. congruence.
Qed.
Lemma FOP_map_In {A B} (P : B -> B -> Prop) (f : A -> B) l : NoDup l -> (forall a b, In a l -> In b l -> a <> b -> P (f a) (f b)) -> ForallOrdPairs P (map f l).
Proof.
  induction 1 as [|x l N1 N2 IH]; intros E; cbn [map]; constructor.
  - apply Forall_forall. intros y Hy. apply in_map_iff in Hy. destruct Hy as (b & <- & Hb). apply E; [left; reflexivity|right; exact Hb|]. intros <-. contradiction.
  - apply IH. intros a b A1 B1. apply E; right; assumption.
Qed.
Lemma replace_facts st rs : good st -> Forall (wf_row tb) rs ->
  exists st' n, run_replace tb st rs = Some (st', n) /\ good st' /\ eqc (replaced (R st) rs) (R st') /\
    (apart tb rs -> exists Q, NoDup Q /\ (forall q, In q Q <-> hitby rs (R st q) = true) /\ n = Z.of_nat (length rs) + Z.of_nat (length Q)).
Proof.
  intros G WI. destruct (store_rows_spec st G rs WI) as (pri & E & Hp & os & Ep & Eos). unfold run_replace. rewrite E.
  destruct (replace_kinds_spec rs (returned tb st rs pri) (kinds tb) (seq 0 (length rs), 0)) as [A B].
  { apply seq_NoDup. } { intros j X. apply in_seq in X. lia. }
  pose proof (replace_kinds_none rs (returned tb st rs pri) (kinds tb) (seq 0 (length rs), 0)) as Fn.
  destruct (fold_left (replace_kind tb rs (returned tb st rs pri)) (kinds tb) (seq 0 (length rs), 0)) as [ids n]. cbn [fst] in *.
  assert (B' : forall j, In j ids <-> (j < length rs)%nat /\ forall j', (j < j' < length rs)%nat -> ~ clash (row_at rs j) (row_at rs j')).
  { intros j. rewrite B, in_seq. split.
    - intros [L X]. split; [lia|]. intros j' L' C. apply (clash_kinds tb) in C. destruct C as (k & Hk & C). apply (X k Hk). exists j'. auto.
    - intros [L X]. split; [lia|]. intros k Hk (j' & L' & C). apply (X j' L'). apply (clash_kinds tb). exists k. auto. }
  set (ins := map (row_at rs) ids).
  assert (Sub : forall r, In r ins -> In r rs). { intros r Hr. apply in_map_iff in Hr. destruct Hr as (j & <- & Hj). apply B' in Hj. apply nth_In. lia. }
  assert (W : Forall (wf_row tb) ins). { rewrite Forall_forall in *. intros r Hr. apply WI. exact (Sub r Hr). }
  assert (Ap : apart tb ins).
  { apply FOP_map_In; [exact A|]. intros a b Ha Hb Ne C. apply B' in Ha. apply B' in Hb. destruct (Nat.lt_ge_cases a b) as [L|L].
    - apply (proj2 Ha b); [lia|exact C].
    - apply (proj2 Hb a); [lia|apply clash_sym; exact C]. }
  assert (Cl : clear_of tb st pri ins).
  { intros r q e o Hr Ro Nq C. apply Nq. apply in_map_iff. exists o. split; [exact (R_pk tb WT st G _ _ _ Ro)|]. apply Hp. split; [exact (R_self tb WT Tt st G _ _ _ Ro)|]. exists r. split; [exact (Sub r Hr)|exact C]. }
  assert (RD : forall d, In d pri -> R st (pk d) = Some (0, d)) by (intros d Hd; apply Hp in Hd; tauto).
  pose proof (dml_spec tb GT pri ins st G RD W) as D. destruct (dml tb pri ins st) as [st'|]; [|exfalso; tauto]. destruct D as (G' & _ & _ & Ro).
  exists st', (n + Z.of_nat (length ins) + Z.of_nat (length pri)). split; [reflexivity|]. split; [exact G'|].
  assert (NDi : NoDup (pks ins)) by (apply (apart_iff tb); exact Ap). assert (NDk : NoDup (pks (keepers rs))) by (apply (apart_iff tb); apply keepers_apart).
  split.
  - intros q. rewrite Ro. unfold replaced, new_rows. rewrite (with_pk_same (keepers rs) ins q NDk NDi).
    + destruct (with_pk ins q); [reflexivity|]. unfold hitby. destruct (R st q) as [[e o]|] eqn:Eq; [|destruct (in_dec cells_dec q (pks pri)); reflexivity].
      destruct (in_dec cells_dec q (pks pri)) as [I1|I1].
      * assert (X : existsb (fun r => clashb tb r o) rs = true); [|rewrite X; reflexivity].
        apply in_map_iff in I1. destruct I1 as (d & Ed & I1). apply Hp in I1. destruct I1 as (X & r & Hr & C). rewrite Ed, Eq in X. injection X as _ ->.
        apply existsb_exists. exists r. split; [exact Hr|]. apply clashb_iff. exact C.
      * destruct (existsb (fun r => clashb tb r o) rs) eqn:X; [|reflexivity]. exfalso. apply existsb_exists in X. destruct X as (r & Hr & C). apply clashb_iff in C.
        apply I1. apply in_map_iff. exists o. split; [exact (R_pk tb WT st G _ _ _ Eq)|]. apply Hp. split; [exact (R_self tb WT Tt st G _ _ _ Eq)|]. exists r. auto.
    + intros r. rewrite keepers_In. unfold ins. rewrite in_map_iff. split.
      * intros (i & E1 & E2). exists i. assert (L : (i < length rs)%nat) by (apply nth_error_Some; congruence).
        assert (Er : row_at rs i = r) by (unfold row_at; apply nth_error_nth; exact E1). split; [exact Er|]. apply B'. split; [exact L|]. intros j' L'. rewrite Er. apply (E2 j'); [lia|]. apply nth_error_nth'. lia.
      * intros (j & <- & Hj). apply B' in Hj. destruct Hj as [L X]. exists j. split; [apply nth_error_nth'; exact L|]. intros j' x L' Ex. assert (Lx : (j' < length rs)%nat) by (apply nth_error_Some; congruence).
        rewrite <- (nth_error_nth _ _ [] Ex). apply X. lia.
  - intros Apr. specialize (Fn Apr (incl_refl _)). injection Fn as -> ->.
    exists (pks pri). split; [|split].
    + rewrite Ep. unfold Core.pks in *. rewrite map_app. apply NoDup_both.
      * (* the rows the table returned are those of different keys *)
        assert (NDr : NoDup (pks rs)) by (apply (apart_iff tb); exact Apr). clear -GT G WI NDr.
        induction rs as [|r l IH]; [constructor|]. inversion WI as [|? ? W1 W2]; subst. inversion NDr as [|? ? N1 N2]; subst.
        unfold get_rows. cbn [flat_map]. change (proj r (tb_pk tb)) with (pk r). rewrite (get_primary_wf tb WT Tt st r W1). fold (get_rows tb st l).
        destruct (R st (pk r)) as [[e o]|] eqn:E; [|exact (IH W2 N2)]. cbn [app map]. constructor; [|exact (IH W2 N2)].
        intros X. apply in_map_iff in X. destruct X as (d & Ed & X). apply (get_rows_In tb GT st G l W2) in X. destruct X as (r' & Hr' & X). apply N1.
        apply in_map_iff. exists r'. split; [|exact Hr']. rewrite <- (R_pk tb WT st G _ _ _ X), Ed. exact (R_pk tb WT st G _ _ _ E).
      * rewrite Eos. exact (proj1 (proj2 (rev_spec st rs))).
      * intros p P1 P2. change (In p (map pk os)) in P2. rewrite Eos in P2. apply in_map_iff in P2. destruct P2 as (o & Eo & P2). apply in_map_iff in P2. destruct P2 as ([k o'] & E' & P2). cbn [snd] in E'. subst o'.
        destruct (proj1 (rev_spec st rs) k o P2) as (_ & _ & _ & X). apply X. rewrite Eo. exact P1.
    + intros q. split.
      * intros X. apply in_map_iff in X. destruct X as (o & <- & X). apply Hp in X. destruct X as (X & r & Hr & C). rewrite X. unfold hitby. apply existsb_exists. exists r. split; [exact Hr|]. apply clashb_iff. exact C.
      * unfold hitby. destruct (R st q) as [[e o]|] eqn:Eq; [|discriminate]. intros X. apply existsb_exists in X. destruct X as (r & Hr & C). apply clashb_iff in C.
        apply in_map_iff. exists o. split; [exact (R_pk tb WT st G _ _ _ Eq)|]. apply Hp. split; [exact (R_self tb WT Tt st G _ _ _ Eq)|]. exists r. auto.
    + unfold ins. unfold Core.pks. rewrite !map_length, seq_length. lia.
Qed.
Lemma run_replace_sql st rs : good st -> Forall (wf_row tb) rs ->
  exists st' n m, run_replace tb st rs = Some (st', n) /\ all_rows (insert_spec ev rstmt 0) (R st) rs (Does (R st') m) /\ (no_mutual_clash tb rs -> n = m).
Proof.
  intros G WI. destruct (replace_facts st rs G WI) as (st' & n & E & _ & Ro & Cn).
  assert (K : keyed tb (R st)) by (intros q e o; apply (R_pk tb WT st G)).
  destruct (batch_ok tb [] rs) eqn:B.
  - apply (batch_apart tb GT) in B. destruct (Cn B) as (Q & Q1 & Q2 & ->). exists st', (Z.of_nat (length rs) + Z.of_nat (length Q)), (Z.of_nat (length rs) + Z.of_nat (length Q)).
    split; [exact E|]. split; [|auto]. apply (all_rows_eqc _ _ _ (replaced (R st) rs) _ _ Ro). exact (replace_count rs B (R st) Q K Q1 Q2).
  - destruct (replace_rows rs (R st) (map fst (st_rows st)) K (R_dom tb GT st)) as (m & X). exists st', n, m. split; [exact E|]. split.
    + exact (all_rows_eqc _ _ _ (replaced (R st) rs) _ _ Ro X).
    + intros N. apply (no_mutual_apart tb) in N. apply (batch_apart tb GT) in N. congruence.
Qed.
End Rp.
