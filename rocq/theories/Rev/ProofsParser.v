(* The iterator over one term: every call finds the next key of the merged lists. *)
From Coq Require Import ZArith List Bool Sorted Lia PeanoNat.
From Verif Require Import Common.Bytes Common.KV Sort.Model Rev.Model Rev.Spec Rev.Order.
Import ListNotations.
Local Open Scope nat_scope.

(* ascending lists by position *)
Lemma ascending_nth l i j a b : ascending l -> nth_error l i = Some a -> nth_error l j = Some b -> i < j -> below (nkey a) (nkey b).
Proof.
  unfold ascending. revert i j. induction l as [|x l IH]; intros i j S Hi Hj L; [destruct i; discriminate|].
  cbn [map] in S. apply StronglySorted_inv in S. destruct S as [S F]. destruct j; [lia|]. destruct i; cbn [nth_error] in *.
  - injection Hi as ->. rewrite Forall_forall in F. apply F. apply in_map. eapply nth_error_In; eauto.
  - eapply IH; eauto. lia.
Qed.
Lemma ascending_same l i j a b : ascending l -> nth_error l i = Some a -> nth_error l j = Some b -> nkey a = nkey b -> i = j.
Proof.
  intros S Hi Hj E. destruct (Nat.lt_total i j) as [L|[L|L]]; [|exact L|].
  - pose proof (ascending_nth _ _ _ _ _ S Hi Hj L) as X. rewrite E in X. destruct (below_irrefl _ X).
  - pose proof (ascending_nth _ _ _ _ _ S Hj Hi L) as X. rewrite E in X. destruct (below_irrefl _ X).
Qed.

Lemma key_at_Some l i k : key_at l i = Some k <-> exists n, nth_error l i = Some n /\ nkey n = k.
Proof.
  unfold key_at. destruct (nth_error l i); cbn; split.
  - intros [= <-]. eauto.
  - intros (m&[= <-]&<-). reflexivity.
  - discriminate.
  - intros (m&X&_). discriminate.
Qed.
Lemma key_at_lt l i : i < length l -> exists n, nth_error l i = Some n /\ key_at l i = Some (nkey n).
Proof.
  intros H. destruct (nth_error l i) eqn:E; [|apply nth_error_None in E; lia].
  exists n. split; [reflexivity|]. unfold key_at. rewrite E. reflexivity.
Qed.

(* position [ix] separates the keys satisfying Q from the others *)
Definition cut (Q : key -> Prop) (l : list node) (ix : option nat) : Prop :=
  match ix with
  | Some i => (exists n, nth_error l i = Some n /\ ~ Q (nkey n)) /\ (forall j m, nth_error l j = Some m -> j < i -> Q (nkey m))
  | None => forall m, In m l -> Q (nkey m)
  end.

(* ---- binary search ---- *)
Lemma gallop_ok target l first off : forall rounds j,
  first + off < length l -> 1 <= j -> 1 <= rounds -> off + 2 <= rounds + j ->
  (j = 1 \/ exists n, nth_error l (first + j / 2) = Some n /\ below (nkey n) target) ->
  exists j', gallop rounds target l first off j = Some j' /\ 1 <= j' /\
    (j' = 1 \/ exists n, nth_error l (first + j' / 2) = Some n /\ below (nkey n) target) /\
    (off < j' \/ exists n, nth_error l (first + j') = Some n /\ upto target (nkey n)).
Proof.
  induction rounds as [|r IH]; intros j Hl Hj H1 Hr Hp.
  - lia.
  - cbn [gallop]. destruct (Nat.leb_spec j off) as [L|L].
    + destruct (key_at_lt l (first + j)) as (n&En&Ek); [lia|]. rewrite Ek.
      destruct (bltb (nkey n) target) eqn:B.
      * apply bltb_below in B. destruct (IH (j * 2)) as (j'&G); [lia|lia|lia|lia| |exists j'; exact G].
        right. exists n. rewrite Nat.div_mul by lia. split; assumption.
      * apply bltb_upto in B. exists j. split; [reflexivity|]. split; [lia|]. split; [exact Hp|]. right. exists n. tauto.
    + exists j. split; [reflexivity|]. split; [lia|]. split; [exact Hp|]. left. lia.
Qed.

Lemma bisect_ok target l : ascending l -> forall rounds first last,
  last < length l -> first <= last -> last - first < rounds ->
  (forall j m, nth_error l j = Some m -> j < first -> below (nkey m) target) ->
  (exists n, nth_error l last = Some n /\ upto target (nkey n)) ->
  exists i, bisect rounds target l first last = Some i /\ cut (fun k => below k target) l (Some i).
Proof.
  intros S. induction rounds as [|r IH]; intros first last Hl Hf Hr H1 H2; [lia|].
  cbn [bisect]. destruct (Nat.ltb_spec first last) as [L|L].
  - set (mid := first + (last - first) / 2) in *.
    assert (M : first <= mid < last) by (unfold mid; pose proof (Nat.div_mod (last - first) 2 ltac:(lia)); pose proof (Nat.mod_upper_bound (last - first) 2 ltac:(lia)); lia).
    clearbody mid.
    destruct (key_at_lt l mid) as (n&En&Ek); [lia|]. rewrite Ek.
    destruct (bcompare target (nkey n)) eqn:C.
    + apply bcompare_eq in C. exists mid. split; [reflexivity|]. split.
      * exists n. split; [exact En|]. rewrite C. apply below_irrefl.
      * intros j m Hm Lj. rewrite C. eapply ascending_nth; eauto.
    + apply IH; [lia|lia|lia|exact H1|]. exists n. split; [exact En|]. apply below_le. exact C.
    + assert (B : below (nkey n) target) by (unfold below; rewrite bcompare_antisym, C; reflexivity).
      apply IH; [lia|lia|lia| |exact H2].
      intros j m Hm Lj. destruct (Nat.eq_dec j mid) as [->|Nj]; [congruence|].
      pose proof (ascending_nth l j mid m n S Hm En ltac:(lia)). korder.
  - exists first. split; [reflexivity|]. assert (first = last) as -> by lia. destruct H2 as (n&En&U). split.
    + exists n. split; [exact En|]. korder.
    + exact H1.
Qed.

Lemma search_ok l target Q ix : ascending l -> cut Q l ix -> (forall k, Q k -> below k target) ->
  exists ix', search_from ix target l = Some ix' /\ cut (fun k => below k target) l ix'.
Proof.
  intros S C HQ. destruct ix as [i|]; cbn [search_from].
  2:{ exists None. split; [reflexivity|]. cbn in *. auto. }
  cbn in C. destruct C as [(n0&E0&_) Cb].
  assert (Li : i < length l) by (apply nth_error_Some; congruence).
  unfold binary_search. destruct (Nat.ltb_spec (length l - 1) i); [lia|].
  set (off := length l - 1 - i). assert (Ho : i + off = length l - 1) by lia. clearbody off.
  destruct (gallop_ok target l i off (off + 2) 1) as (j&G&J1&J2&J3); [lia|lia|lia|lia|tauto|]. rewrite G.
  assert (Hlast : i + Nat.min j off < length l) by lia.
  destruct (key_at_lt l (i + Nat.min j off)) as (n&En&Ek); [exact Hlast|]. rewrite Ek.
  destruct (bltb (nkey n) target) eqn:B.
  - apply bltb_below in B. exists None. split; [reflexivity|]. cbn. intros m Hm.
    assert (Lo : Nat.min j off = off).
    { destruct J3 as [J3|(n'&En'&U)]; [lia|]. destruct (Nat.le_gt_cases j off); [|lia].
      replace (Nat.min j off) with j in En by lia. assert (n' = n) by congruence. subst. exfalso. korder. }
    rewrite Lo in En. apply In_nth_error in Hm. destruct Hm as [jm Hm].
    assert (jm < length l) by (apply nth_error_Some; congruence).
    destruct (Nat.eq_dec jm (i + off)) as [->|Nj]; [congruence|].
    pose proof (ascending_nth l jm (i + off) m n S Hm En ltac:(lia)). korder.
  - apply bltb_upto in B.
    assert (Hd : j / 2 <= Nat.min j off).
    { destruct J2 as [-> |(n'&En'&_)]; [cbn; lia|]. assert (i + j / 2 < length l) by (apply nth_error_Some; congruence).
      pose proof (Nat.div_mod j 2 ltac:(lia)). lia. }
    destruct (bisect_ok target l S (length l + 1) (i + j / 2) (i + Nat.min j off)) as (r&R&C); [exact Hlast|lia|lia| | |].
    + intros jm m Hm Lj. destruct J2 as [-> |(n'&En'&Bn')].
      * cbn in Lj. apply HQ. apply (Cb jm m Hm). lia.
      * pose proof (ascending_nth l jm _ m n' S Hm En' Lj). korder.
    + exists n. tauto.
    + rewrite R. exists (Some r). split; [reflexivity|exact C].
Qed.

(* ---- the chosen node ---- *)
Definition same (p q : parser) : Prop :=
  pnew p = pnew q /\ pold p = pold q /\ pfirst p = pfirst q /\ psecond p = psecond q.

Definition before_end (second k : key) : Prop := second = [] \/ below k second.

(* the iterator stands on node n *)
Definition stands (p : parser) (n : node) : Prop :=
  let c := nkey n in
  cut (fun k => below k c) (pnew p) (pixn p) /\ cut (fun k => below k c) (pold p) (pixo p) /\
  match pcmp p with
  | Lt => exists i, pixn p = Some i /\ nth_error (pnew p) i = Some n /\ forall b, In b (pold p) -> nkey b <> c
  | Eq => exists i j b, pixn p = Some i /\ nth_error (pnew p) i = Some n /\ pixo p = Some j /\ nth_error (pold p) j = Some b /\ nkey b = c
  | Gt => exists j, pixo p = Some j /\ nth_error (pold p) j = Some n /\ forall a, In a (pnew p) -> nkey a <> c
  end.

Definition p_ok (p : parser) : Prop :=
  ascending (pnew p) /\ ascending (pold p) /\ forall n, pcur p = Some n -> stands p n.

Lemma stands_entry p n : stands p n -> entry_of (pnew p) (pold p) (nkey n) n.
Proof.
  intros (_&_&C). destruct (pcmp p).
  - destruct C as (i&j&b&_&E&_). split; [reflexivity|]. left. eapply nth_error_In; eauto.
  - destruct C as (i&_&E&_). split; [reflexivity|]. left. eapply nth_error_In; eauto.
  - destruct C as (j&_&E&N). split; [reflexivity|]. right. split; [eapply nth_error_In; eauto|exact N].
Qed.

Definition closed (Q : key -> Prop) : Prop := forall a b, Q b -> upto a b -> Q a.

Lemma cut_out Q l ix m : closed Q -> ascending l -> cut Q l ix -> In m l -> ~ Q (nkey m) ->
  exists i n, ix = Some i /\ nth_error l i = Some n /\ upto (nkey n) (nkey m).
Proof.
  intros Cl S C Hm N. destruct ix as [i|]; cbn in C.
  - destruct C as [(n&En&_) Cb]. exists i, n. split; [reflexivity|]. split; [exact En|].
    apply In_nth_error in Hm. destruct Hm as [j Hj]. destruct (Nat.lt_total i j) as [L|[<-|L]].
    + apply below_le. eapply ascending_nth; eauto.
    + assert (m = n) by congruence. subst. apply upto_refl.
    + destruct N. apply (Cb j m Hj L).
  - destruct N. auto.
Qed.
(* a cut moves up to any key that is not above the next one *)
Lemma cut_to Q l ix c : closed Q -> ascending l -> cut Q l ix -> ~ Q c ->
  (forall i n, ix = Some i -> nth_error l i = Some n -> upto c (nkey n)) -> cut (fun k => below k c) l ix.
Proof.
  intros Cl S C N U. destruct ix as [i|]; cbn in *.
  - destruct C as [(n&En&Nn) Cb]. split.
    + exists n. split; [exact En|]. specialize (U i n eq_refl En). korder.
    + intros j m Hj L. specialize (Cb j m Hj L). destruct (below_or (nkey m) c) as [B|B]; [exact B|]. destruct N. eapply Cl; eauto.
  - intros m Hm. specialize (C m Hm). destruct (below_or (nkey m) c) as [B|B]; [exact B|]. destruct N. eapply Cl; eauto.
Qed.

Lemma choose_ok p Q ixn ixo : ascending (pnew p) -> ascending (pold p) -> closed Q ->
  cut Q (pnew p) ixn -> cut Q (pold p) ixo ->
  exists p', choose p ixn ixo = Some p' /\ same p' p /\ p_ok p' /\
    match pcur p' with
    | Some n => ~ Q (nkey n) /\ before_end (psecond p) (nkey n) /\
        forall k m, entry_of (pnew p) (pold p) k m -> ~ Q k -> upto (nkey n) k
    | None => forall k m, entry_of (pnew p) (pold p) k m -> ~ Q k -> ~ before_end (psecond p) k
    end.
Proof.
  intros Sn So Cl Cn Co.
  (* every entry outside Q is at or after one of the two positions *)
  assert (LB : forall k m, entry_of (pnew p) (pold p) k m -> ~ Q k ->
    (exists i a, ixn = Some i /\ nth_error (pnew p) i = Some a /\ upto (nkey a) k) \/
    (exists j b, ixo = Some j /\ nth_error (pold p) j = Some b /\ upto (nkey b) k)).
  { intros k m [<- [Hm|[Hm _]]] N; [left|right]; eapply cut_out; eauto. }
  (* the outcome once the node and the comparison are known *)
  assert (FIN : forall cmp n,
    let p' cur := Parser (pnew p) (pold p) (pfirst p) (psecond p) ixn ixo cmp cur in
    stands (p' (Some n)) n -> ~ Q (nkey n) ->
    (forall k m, entry_of (pnew p) (pold p) k m -> ~ Q k -> upto (nkey n) k) ->
    exists q, (let cur := if negb (match psecond p with [] => true | _ => false end) && bleb (psecond p) (nkey n)
               then None else Some n in Some (p' cur)) = Some q /\ same q p /\ p_ok q /\
    match pcur q with
    | Some n => ~ Q (nkey n) /\ before_end (psecond p) (nkey n) /\
        forall k m, entry_of (pnew p) (pold p) k m -> ~ Q k -> upto (nkey n) k
    | None => forall k m, entry_of (pnew p) (pold p) k m -> ~ Q k -> ~ before_end (psecond p) k
    end).
  { intros cmp n p' St N M. eexists. split; [reflexivity|].
    destruct (negb (match psecond p with [] => true | _ => false end) && bleb (psecond p) (nkey n)) eqn:B.
    - apply andb_true_iff in B. destruct B as [B1 B2]. apply bleb_upto in B2.
      split; [repeat split; reflexivity|]. split; [split; [exact Sn|split; [exact So|intros ? X; discriminate X]]|]. cbn [pcur].
      intros k m Hk Nk [X|X]; [rewrite X in B1; discriminate|]. specialize (M k m Hk Nk). korder.
    - split; [repeat split; reflexivity|]. split; [split; [exact Sn|split; [exact So|intros ? X; injection X as <-; exact St]]|]. cbn [pcur].
      split; [exact N|]. split; [|exact M]. unfold before_end. destruct (psecond p); [left; reflexivity|right].
      cbn [negb andb] in B. apply bleb_below in B. exact B. }
  unfold choose. destruct ixn as [i|], ixo as [j|].
  - cbn in Cn, Co. pose proof Cn as Cn'. pose proof Co as Co'. destruct Cn' as [(a&Ea&Na) Cb]. destruct Co' as [(b&Eb&Nb) Cc]. rewrite Ea, Eb.
    assert (Ka : forall i0 n, Some i = Some i0 -> nth_error (pnew p) i0 = Some n -> n = a) by (intros ? ? [= <-]; congruence).
    assert (Kb : forall i0 n, Some j = Some i0 -> nth_error (pold p) i0 = Some n -> n = b) by (intros ? ? [= <-]; congruence).
    destruct (bcompare (nkey a) (nkey b)) eqn:C.
    + apply bcompare_eq in C. apply FIN.
      * split; [|split]; cbn [pnew pold pixn pixo pcmp].
        -- apply (cut_to Q); auto. intros i0 n E1 E2. rewrite (Ka _ _ E1 E2). apply upto_refl.
        -- apply (cut_to Q); auto. intros i0 n E1 E2. rewrite (Kb _ _ E1 E2), C. apply upto_refl.
        -- exists i, j, b. repeat split; auto.
      * exact Na.
      * intros k m Hk Nk. destruct (LB k m Hk Nk) as [(i0&a'&E1&E2&U)|(j0&b'&E1&E2&U)].
        -- rewrite (Ka _ _ E1 E2) in U. exact U.
        -- rewrite (Kb _ _ E1 E2) in U. rewrite C. exact U.
    + assert (B : below (nkey a) (nkey b)) by exact C. apply FIN.
      * split; [|split]; cbn [pnew pold pixn pixo pcmp].
        -- apply (cut_to Q); auto. intros i0 n E1 E2. rewrite (Ka _ _ E1 E2). apply upto_refl.
        -- apply (cut_to Q); auto. intros i0 n E1 E2. rewrite (Kb _ _ E1 E2). korder.
        -- exists i. split; [reflexivity|]. split; [exact Ea|]. intros b' Hb' E.
           destruct (cut_out Q (pold p) (Some j) b' Cl So Co Hb') as (j0&b0&E1&E2&U); [rewrite E; exact Na|].
           rewrite (Kb _ _ E1 E2) in U. rewrite E in U. korder.
      * exact Na.
      * intros k m Hk Nk. destruct (LB k m Hk Nk) as [(i0&a'&E1&E2&U)|(j0&b'&E1&E2&U)].
        -- rewrite (Ka _ _ E1 E2) in U. exact U.
        -- rewrite (Kb _ _ E1 E2) in U. korder.
    + assert (B : below (nkey b) (nkey a)) by (unfold below; rewrite bcompare_antisym, C; reflexivity). apply FIN.
      * split; [|split]; cbn [pnew pold pixn pixo pcmp].
        -- apply (cut_to Q); auto. intros i0 n E1 E2. rewrite (Ka _ _ E1 E2). korder.
        -- apply (cut_to Q); auto. intros i0 n E1 E2. rewrite (Kb _ _ E1 E2). apply upto_refl.
        -- exists j. split; [reflexivity|]. split; [exact Eb|]. intros a' Ha' E.
           destruct (cut_out Q (pnew p) (Some i) a' Cl Sn Cn Ha') as (j0&b0&E1&E2&U); [rewrite E; exact Nb|].
           rewrite (Ka _ _ E1 E2) in U. rewrite E in U. korder.
      * exact Nb.
      * intros k m Hk Nk. destruct (LB k m Hk Nk) as [(i0&a'&E1&E2&U)|(j0&b'&E1&E2&U)].
        -- rewrite (Ka _ _ E1 E2) in U. korder.
        -- rewrite (Kb _ _ E1 E2) in U. exact U.
  - cbn in Cn. pose proof Cn as Cn'. destruct Cn' as [(a&Ea&Na) Cb]. rewrite Ea.
    assert (Ka : forall i0 n, Some i = Some i0 -> nth_error (pnew p) i0 = Some n -> n = a) by (intros ? ? [= <-]; congruence).
    apply FIN.
    + split; [|split]; cbn [pnew pold pixn pixo pcmp].
      * apply (cut_to Q); auto. intros i0 n E1 E2. rewrite (Ka _ _ E1 E2). apply upto_refl.
      * apply (cut_to Q); auto. intros i0 n E1. discriminate.
      * exists i. split; [reflexivity|]. split; [exact Ea|]. intros b' Hb' E. apply Na. rewrite <- E. apply (Co b' Hb').
    + exact Na.
    + intros k m Hk Nk. destruct (LB k m Hk Nk) as [(i0&a'&E1&E2&U)|(j0&b'&E1&_)]; [|discriminate].
      rewrite (Ka _ _ E1 E2) in U. exact U.
  - cbn in Co. pose proof Co as Co'. destruct Co' as [(b&Eb&Nb) Cc]. rewrite Eb.
    assert (Kb : forall i0 n, Some j = Some i0 -> nth_error (pold p) i0 = Some n -> n = b) by (intros ? ? [= <-]; congruence).
    apply FIN.
    + split; [|split]; cbn [pnew pold pixn pixo pcmp].
      * apply (cut_to Q); auto. intros i0 n E1. discriminate.
      * apply (cut_to Q); auto. intros i0 n E1 E2. rewrite (Kb _ _ E1 E2). apply upto_refl.
      * exists j. split; [reflexivity|]. split; [exact Eb|]. intros b' Hb' E. apply Nb. rewrite <- E. apply (Cn b' Hb').
    + exact Nb.
    + intros k m Hk Nk. destruct (LB k m Hk Nk) as [(i0&a'&E1&_)|(j0&b'&E1&E2&U)]; [discriminate|].
      rewrite (Kb _ _ E1 E2) in U. exact U.
  - eexists. split; [reflexivity|]. split; [repeat split; reflexivity|].
    split; [split; [exact Sn|split; [exact So|intros ? X; discriminate X]]|]. cbn [pcur].
    intros k m Hk Nk. destruct (LB k m Hk Nk) as [(i0&a'&E1&_)|(j0&b'&E1&_)]; discriminate.
Qed.

(* the node after the current one *)
Lemma clip_ok l c i n : ascending l -> nth_error l i = Some n -> nkey n = c ->
  cut (fun k => below k c) l (Some i) -> cut (fun k => upto k c) l (clip l (incr (Some i))).
Proof.
  intros SA E <- [_ Cb]. cbn [incr clip]. destruct (Nat.ltb_spec (S i) (length l)) as [L|L].
  - destruct (key_at_lt l (S i) L) as (m&Em&_). split.
    + exists m. split; [exact Em|]. pose proof (ascending_nth l i (S i) n m SA E Em ltac:(lia)). korder.
    + intros j x Hj Lj. destruct (Nat.eq_dec j i) as [->|]; [assert (x = n) as -> by congruence; apply upto_refl|].
      apply below_le. apply (Cb j x Hj). lia.
  - intros m Hm. apply In_nth_error in Hm. destruct Hm as [j Hj].
    assert (j < length l) by (apply nth_error_Some; congruence).
    destruct (Nat.eq_dec j i) as [->|]; [assert (m = n) as -> by congruence; apply upto_refl|].
    apply below_le. apply (Cb j m Hj). lia.
Qed.
Lemma clip_other l c ix : ascending l -> cut (fun k => below k c) l ix -> (forall b, In b l -> nkey b <> c) ->
  cut (fun k => upto k c) l (clip l ix).
Proof.
  intros SA C N. destruct ix as [i|]; cbn [clip].
  - destruct C as [(n&En&Nn) Cb]. assert (L : i < length l) by (apply nth_error_Some; congruence).
    apply Nat.ltb_lt in L. rewrite L. split.
    + exists n. split; [exact En|]. apply not_below in Nn. apply not_upto.
      apply upto_cases in Nn. destruct Nn as [Nn|Nn]; [exact Nn|]. destruct (N n (nth_error_In _ _ En)). congruence.
    + intros j m Hj Lj. apply below_le. eauto.
  - cbn in *. intros m Hm. apply below_le. auto.
Qed.

Lemma closed_below c : closed (fun k => below k c).
Proof. intros a b X Y. korder. Qed.
Lemma closed_upto c : closed (fun k => upto k c).
Proof. intros a b X Y. korder. Qed.

(* what a call on a standing iterator gives: the least entry above/from a bound *)
Definition finds (p : parser) (Q : key -> Prop) (r : option node) : Prop :=
  match r with
  | Some n => ~ Q (nkey n) /\ before_end (psecond p) (nkey n) /\
      forall k m, entry_of (pnew p) (pold p) k m -> ~ Q k -> upto (nkey n) k
  | None => forall k m, entry_of (pnew p) (pold p) k m -> ~ Q k -> ~ before_end (psecond p) k
  end.

Lemma p_next_ok p c : p_ok p -> pcur p = Some c ->
  exists p', p_next p = Some p' /\ same p' p /\ p_ok p' /\ finds p (fun k => upto k (nkey c)) (pcur p').
Proof.
  intros (Sn&So&St) E. specialize (St c E). unfold p_next. rewrite E.
  destruct St as (Cn&Co&Cm). apply choose_ok; auto; [apply closed_upto| |].
  - destruct (pcmp p).
    + destruct Cm as (i&j&b&E1&E2&_). rewrite E1 in *. eapply clip_ok; eauto.
    + destruct Cm as (i&E1&E2&_). rewrite E1 in *. eapply clip_ok; eauto.
    + destruct Cm as (j&E1&E2&N). apply clip_other; auto.
  - destruct (pcmp p).
    + destruct Cm as (i&j&b&_&_&E1&E2&E3). rewrite E1 in *. eapply clip_ok; eauto.
    + destruct Cm as (i&E1&E2&N). apply clip_other; auto.
    + destruct Cm as (j&E1&E2&_). rewrite E1 in *. eapply clip_ok; eauto.
Qed.

Lemma p_advance_ok p c t : p_ok p -> pcur p = Some c -> upto (nkey c) t ->
  exists p', p_advance p t = Some p' /\ same p' p /\ p_ok p' /\ finds p (fun k => below k t) (pcur p').
Proof.
  intros (Sn&So&St) E U. specialize (St c E). unfold p_advance. rewrite E.
  destruct St as (Cn&Co&Cm).
  destruct (search_ok (pnew p) t _ _ Sn Cn) as (ixn&E1&C1); [intros k X; korder|].
  destruct (search_ok (pold p) t _ _ So Co) as (ixo&E2&C2); [intros k X; korder|].
  rewrite E1, E2. apply choose_ok; auto. apply closed_below.
Qed.

(* a call to advance that would not move still stands *)
Lemma p_init_start new old first second : ascending new -> ascending old ->
  exists p, p_ok p /\ pnew p = new /\ pold p = old /\ pfirst p = first /\ psecond p = second /\
    (forall n, pcur p = Some n -> (In n (firstn 1 new) \/ In n (firstn 1 old)) /\ forall k m, entry_of new old k m -> upto (nkey n) k) /\
    (pcur p = None -> new = [] /\ old = []) /\
    p_init new old first second = match first with [] => Some p | _ => p_advance p first end.
Proof.
  intros Sn So. unfold p_init.
  assert (HN : forall x l, ascending (x :: l) -> forall m, In m (x :: l) -> upto (nkey x) (nkey m)).
  { intros x l A m [->|Hm]; [apply upto_refl|]. unfold ascending in A. cbn in A. apply StronglySorted_inv in A. destruct A as [_ F].
    apply below_le. rewrite Forall_forall in F. apply F. apply in_map. exact Hm. }
  assert (C0 : forall x l c, upto c (nkey x) -> cut (fun k => below k c) (x :: l) (Some 0)).
  { intros x l c U. split; [exists x; split; [reflexivity|korder]|]. intros j m _ L. lia. }
  destruct new as [|a new], old as [|b old].
  - match goal with |- context [Some (Parser ?a ?b ?c ?d ?e ?f ?g ?h)] => exists (Parser a b c d e f g h) end. split; [|split; [reflexivity|split; [reflexivity|split; [reflexivity|split; [reflexivity|split; [|split; [|destruct first; reflexivity]]]]]]].
    + split; [exact Sn|split; [exact So|intros ? X; discriminate X]].
    + intros n X. discriminate X.
    + auto.
  - match goal with |- context [Some (Parser ?a ?b ?c ?d ?e ?f ?g ?h)] => exists (Parser a b c d e f g h) end. split; [|split; [reflexivity|split; [reflexivity|split; [reflexivity|split; [reflexivity|split; [|split; [|destruct first; reflexivity]]]]]]].
    + split; [exact Sn|split; [exact So|]]. intros n X. cbn in X. injection X as <-. split; [|split]; cbn [pnew pold pixn pixo pcmp].
      * intros m [].
      * apply C0. apply upto_refl.
      * exists 0. repeat split; auto.
    + cbn [pcur firstn]. intros n [= <-]. split; [right; left; reflexivity|]. intros k m [<- [[]|[Hm _]]]. eapply HN; eauto.
    + discriminate.
  - match goal with |- context [Some (Parser ?a ?b ?c ?d ?e ?f ?g ?h)] => exists (Parser a b c d e f g h) end. split; [|split; [reflexivity|split; [reflexivity|split; [reflexivity|split; [reflexivity|split; [|split; [|destruct first; reflexivity]]]]]]].
    + split; [exact Sn|split; [exact So|]]. intros n X. cbn in X. injection X as <-. split; [|split]; cbn [pnew pold pixn pixo pcmp].
      * apply C0. apply upto_refl.
      * intros m [].
      * exists 0. repeat split; auto.
    + cbn [pcur firstn]. intros n [= <-]. split; [left; left; reflexivity|]. intros k m [<- [Hm|[[] _]]]. eapply HN; eauto.
    + discriminate.
  - match goal with |- context [Some (Parser ?a ?b ?c ?d ?e ?f ?g ?h)] => exists (Parser a b c d e f g h) end. split; [|split; [reflexivity|split; [reflexivity|split; [reflexivity|split; [reflexivity|split; [|split; [|destruct first; reflexivity]]]]]]].
    + split; [exact Sn|split; [exact So|]]. intros n X. cbn [pcur] in X.
      destruct (bcompare (nkey a) (nkey b)) eqn:C; injection X as <-; split; [|split| |split| |split]; cbn [pnew pold pixn pixo pcmp]; rewrite ?C.
      * apply C0. apply upto_refl.
      * apply C0. apply bcompare_eq in C. rewrite C. apply upto_refl.
      * apply bcompare_eq in C. exists 0, 0, b. repeat split; auto.
      * apply C0. apply upto_refl.
      * apply C0. apply below_le. exact C.
      * exists 0. split; [reflexivity|]. split; [reflexivity|]. intros b' Hb' E. pose proof (HN _ _ So b' Hb') as U.
        assert (B : below (nkey a) (nkey b)) by exact C. rewrite E in U. korder.
      * apply C0. apply below_le. unfold below. rewrite bcompare_antisym, C. reflexivity.
      * apply C0. apply upto_refl.
      * exists 0. split; [reflexivity|]. split; [reflexivity|]. intros b' Hb' E. pose proof (HN _ _ Sn b' Hb') as U.
        assert (B : below (nkey b) (nkey a)) by (unfold below; rewrite bcompare_antisym, C; reflexivity). rewrite E in U. korder.
    + cbn [pcur firstn]. intros n X.
      assert (CC : (n = a /\ upto (nkey a) (nkey b)) \/ (n = b /\ upto (nkey b) (nkey a))).
      { unfold upto. rewrite (bcompare_antisym (nkey a) (nkey b)). destruct (bcompare (nkey a) (nkey b)); injection X as <-; cbn; [left|left|right]; split; congruence. }
      split; [destruct CC as [[-> _]|[-> _]]; [left; left|right; left]; reflexivity|].
      intros k m [<- [Hm|[Hm _]]].
      * pose proof (HN _ _ Sn m Hm). destruct CC as [[-> U]|[-> U]]; korder.
      * pose proof (HN _ _ So m Hm). destruct CC as [[-> U]|[-> U]]; korder.
    + cbn [pcur]. destruct (bcompare (nkey a) (nkey b)); discriminate.
Qed.

(* the freshly built iterator stands on the first entry of the range *)
Lemma p_init_ok new old first second : ascending new -> ascending old ->
  first <> [] \/ second = [] \/ (forall n, In n (firstn 1 new) \/ In n (firstn 1 old) -> below (nkey n) second) ->
  exists p, p_init new old first second = Some p /\ p_ok p /\
    pnew p = new /\ pold p = old /\ psecond p = second /\
    match pcur p with
    | Some n => in_range first second (nkey n) /\ forall k m, entry_of new old k m -> in_range first second k -> upto (nkey n) k
    | None => forall k m, entry_of new old k m -> ~ in_range first second k
    end.
Proof.
  intros Sn So F. destruct (p_init_start new old first second Sn So) as (p&Ok&En&Eo&Ef&Es&HS&HN&->).
  destruct first as [|x first].
  - exists p. split; [reflexivity|]. split; [exact Ok|]. repeat (split; [assumption|]). destruct (pcur p) as [n|].
    + destruct (HS n eq_refl) as [HI HM]. split; [|intros k m Hk _; eapply HM; eauto].
      split; [left; reflexivity|]. destruct F as [F|[F|F]]; [congruence|left; exact F|right; apply F; exact HI].
    + destruct (HN eq_refl) as [-> ->]. intros k m [_ [[]|[[] _]]].
  - set (f := x :: first) in *. destruct (pcur p) as [n|] eqn:E.
    + (* advance from the first node: when it is already past, the search stays *)
      assert (G : exists p', p_advance p f = Some p' /\ same p' p /\ p_ok p' /\ finds p (fun k => below k f) (pcur p')).
      { destruct Ok as (A1&A2&St). specialize (St n E). destruct St as (C1&C2&_).
        unfold p_advance. rewrite E.
        assert (Z : forall l ix, ascending l -> cut (fun k => below k (nkey n)) l ix ->
          (forall m, In m l -> upto (nkey n) (nkey m)) -> exists ix', search_from ix f l = Some ix' /\ cut (fun k => below k f) l ix').
        { intros l ix Sl C All. apply (search_ok l f (fun _ => False)); [exact Sl| |tauto].
          destruct ix as [i|]; cbn in *.
          - destruct C as [(m&Em&_) Cb]. split; [exists m; split; [exact Em|tauto]|].
            intros j y Hj L. pose proof (Cb j y Hj L) as B. pose proof (All y (nth_error_In _ _ Hj)). korder.
          - intros m Hm. pose proof (C m Hm) as B. pose proof (All m Hm). korder. }
        destruct (HS n eq_refl) as [_ HM].
        assert (MN : forall m, In m new -> upto (nkey n) (nkey m)) by (intros m Hm; apply (HM (nkey m) m); split; [reflexivity|left; exact Hm]).
        assert (MO : forall m, In m old -> upto (nkey n) (nkey m)).
        { intros m Hm. destruct (in_dec (list_eq_dec Z.eq_dec) (nkey m) (map nkey new)) as [I1|I1].
          - apply in_map_iff in I1. destruct I1 as (y&Ey&Iy). rewrite <- Ey. apply MN. exact Iy.
          - apply (HM (nkey m) m). split; [reflexivity|right; split; [exact Hm|]]. intros y Hy X. apply I1. rewrite <- X. apply in_map. exact Hy. }
        rewrite En in *. rewrite Eo in *.
        destruct (Z new (pixn p) A1 C1 MN) as (ixn&E1&D1). destruct (Z old (pixo p) A2 C2 MO) as (ixo&E2&D2).
        rewrite E1, E2. destruct (choose_ok p (fun k => below k f) ixn ixo) as (p'&G); rewrite ?En, ?Eo in *; auto; [apply closed_below|].
        exists p'. unfold finds. rewrite En, Eo. exact G. }
      destruct G as (p'&G1&G2&G3&G4). destruct G2 as (S1&S2&S3&S4). exists p'. split; [exact G1|]. split; [exact G3|].
      split; [congruence|]. split; [congruence|]. split; [congruence|].
      unfold finds in G4. rewrite En, Eo, Es in G4. destruct (pcur p') as [n'|].
      * destruct G4 as (N1&N2&N3). split.
        { split; [right; apply not_below; exact N1|exact N2]. }
        intros k m Hk [R _]. apply (N3 k m Hk). apply not_below. destruct R as [R|R]; [discriminate R|exact R].
      * intros k m Hk [R1 R2]. apply (G4 k m Hk); [|exact R2]. apply not_below. destruct R1 as [R|R]; [discriminate R|exact R].
    + exists p. unfold p_advance. rewrite E. split; [reflexivity|]. split; [exact Ok|]. repeat (split; [assumption|]).
      destruct (HN eq_refl) as [-> ->]. intros k m [_ [[]|[[] _]]].
Qed.
