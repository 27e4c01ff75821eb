(* Every history keeps the levels in step with the writes. *)
From Coq Require Import ZArith List Bool Lia Sorted PeanoNat.
From Verif Require Import Common.Bytes Common.KV Rev.Model Rev.Spec Rev.Order Rev.LevelModel Rev.LevelSpec Rev.LevelOrder Rev.LevelMerge.
Import ListNotations.
Local Open Scope nat_scope.

(* ---- the writes ---- *)
Definition lastop (ws : list wr) (t : term) (k : key) : option bool :=
  fold_left (fun o w => if concerns t k w then Some (w_del w) else o) ws None.
Definition at_raw (ws : list wr) (t : term) (k : key) (x : Z) : option bool :=
  fold_left (fun o w => if concerns t k w && (w_time w =? x)%Z then Some (w_del w) else o) ws None.

Lemma concerns_iff t k w : concerns t k w = true <-> w_term w = t /\ w_pk w = k.
Proof. unfold concerns. rewrite andb_true_iff, !beqb_eq. reflexivity. Qed.

Lemma lastop_snoc ws w t k : lastop (ws ++ [w]) t k = if concerns t k w then Some (w_del w) else lastop ws t k.
Proof. unfold lastop. rewrite fold_left_app. reflexivity. Qed.
Lemma at_raw_snoc ws w t k x : at_raw (ws ++ [w]) t k x = if concerns t k w && (w_time w =? x)%Z then Some (w_del w) else at_raw ws t k x.
Proof. unfold at_raw. rewrite fold_left_app. reflexivity. Qed.

Lemma lastop_app a b t k : lastop (a ++ b) t k = match lastop b t k with Some d => Some d | None => lastop a t k end.
Proof.
  induction b as [|w b IH] using rev_ind; [rewrite app_nil_r; reflexivity|]. rewrite app_assoc, !lastop_snoc. destruct (concerns t k w); [reflexivity|exact IH].
Qed.
Lemma at_raw_app a b t k x : at_raw (a ++ b) t k x = match at_raw b t k x with Some d => Some d | None => at_raw a t k x end.
Proof.
  induction b as [|w b IH] using rev_ind; [rewrite app_nil_r; reflexivity|]. rewrite app_assoc, !at_raw_snoc. destruct (concerns t k w && (w_time w =? x)%Z); [reflexivity|exact IH].
Qed.
Lemma holds_lastop ws t k : holds ws t k = match lastop ws t k with Some d => negb d | None => false end.
Proof.
  induction ws as [|w ws IH] using rev_ind; [reflexivity|]. rewrite lastop_snoc. unfold holds in *. rewrite fold_left_app. cbn [fold_left].
  destruct (concerns t k w); [reflexivity|exact IH].
Qed.
Lemma holds_app a b t k : holds (a ++ b) t k = match lastop b t k with Some d => negb d | None => holds a t k end.
Proof. rewrite !holds_lastop, lastop_app. destruct (lastop b t k); reflexivity. Qed.

Lemma at_raw_in ws t k x d : at_raw ws t k x = Some d -> exists w, In w ws /\ w_term w = t /\ w_pk w = k /\ w_time w = x /\ w_del w = d.
Proof.
  induction ws as [|w ws IH] using rev_ind; [discriminate|]. rewrite at_raw_snoc. destruct (concerns t k w && (w_time w =? x)%Z) eqn:B.
  - intros E. apply andb_true_iff in B. destruct B as [B1 B2]. apply concerns_iff in B1. apply Z.eqb_eq in B2. exists w. rewrite in_app_iff. cbn. injection E as E. intuition.
  - intros E. destruct (IH E) as (v&I1&X). exists v. rewrite in_app_iff. intuition.
Qed.
Lemma at_raw_some ws w : In w ws -> exists d, at_raw ws (w_term w) (w_pk w) (w_time w) = Some d.
Proof.
  induction ws as [|v ws IH] using rev_ind; [intros []|]. rewrite in_app_iff, at_raw_snoc. intros [I1|[->|[]]].
  - destruct (concerns (w_term w) (w_pk w) v && (w_time v =? w_time w)%Z); [eauto|apply IH; exact I1].
  - rewrite (proj2 (concerns_iff _ _ w) (conj eq_refl eq_refl)), Z.eqb_refl. cbn [andb]. eauto.
Qed.
Lemma lastop_none ws t k : lastop ws t k = None <-> forall w, In w ws -> ~ (w_term w = t /\ w_pk w = k).
Proof.
  induction ws as [|v ws IH] using rev_ind; [split; [intros _ w []|reflexivity]|]. rewrite lastop_snoc. destruct (concerns t k v) eqn:B.
  - split; [discriminate|]. intros X. exfalso. apply concerns_iff in B. apply (X v); [rewrite in_app_iff; right; left; reflexivity|exact B].
  - rewrite IH. split; intros X w; rewrite ?in_app_iff.
    + intros [I1|[<-|[]]]; [apply X; exact I1|]. intros Y. apply concerns_iff in Y. congruence.
    + intros I1. apply X. rewrite in_app_iff. left. exact I1.
Qed.

Definition mono (ws : list wr) : Prop := ForallOrdPairs (fun v w => same_entry v w -> (w_time v <= w_time w)%Z) ws.

Lemma ford_app {A} (R : A -> A -> Prop) a b : ForallOrdPairs R (a ++ b) <-> ForallOrdPairs R a /\ ForallOrdPairs R b /\ forall x y, In x a -> In y b -> R x y.
Proof.
  induction a as [|c a IH]; cbn.
  - split; [intros X; split; [constructor|]; split; [exact X|intros x y []]|tauto].
  - split.
    + intros X. inversion X as [|? ? F Y]; subst. apply IH in Y. destruct Y as (Y1&Y2&Y3). rewrite Forall_app in F. destruct F as [F1 F2]. split; [constructor; assumption|]. split; [exact Y2|].
      intros x y [<-|I1] I2; [rewrite Forall_forall in F2; apply F2; exact I2|apply Y3; assumption].
    + intros (X&Y&Z). inversion X as [|? ? F W]; subst. constructor.
      * rewrite Forall_app. split; [exact F|]. apply Forall_forall. intros y I2. apply Z; [left; reflexivity|exact I2].
      * apply IH. split; [exact W|]. split; [exact Y|]. intros x y I1 I2. apply Z; [right; exact I1|exact I2].
Qed.
Lemma mono_skipn n ws : mono ws -> mono (skipn n ws).
Proof. intros M. rewrite <- (firstn_skipn n ws) in M. apply ford_app in M. apply M. Qed.
Lemma mono_firstn n ws : mono ws -> mono (firstn n ws).
Proof. intros M. rewrite <- (firstn_skipn n ws) in M. apply ford_app in M. apply M. Qed.

(* the last write of an entry has the latest time *)
Lemma lastop_latest ws t k d : mono ws -> lastop ws t k = Some d ->
  exists x, at_raw ws t k x = Some d /\ forall y d', at_raw ws t k y = Some d' -> (y <= x)%Z.
Proof.
  induction ws as [|w ws IH] using rev_ind; intros M; [discriminate|]. rewrite lastop_snoc. pose proof M as M0. apply ford_app in M. destruct M as (M&_&C).
  destruct (concerns t k w) eqn:B.
  - intros E. exists (w_time w). rewrite at_raw_snoc, B, Z.eqb_refl. split; [exact E|]. intros y d' E'. apply at_raw_in in E'. destruct E' as (v&I1&X1&X2&X3&_).
    apply concerns_iff in B. apply in_app_iff in I1. destruct I1 as [I1|[<-|[]]]; [|lia]. rewrite <- X3. apply (C v w I1 (or_introl eq_refl)). unfold same_entry. intuition congruence.
  - intros E. destruct (IH M E) as (x&E1&Mx). exists x. rewrite at_raw_snoc, B. cbn [andb]. split; [exact E1|]. intros y d'. rewrite at_raw_snoc, B. cbn [andb]. apply Mx.
Qed.

(* ---- level 1 ---- *)
Definition sound (ws : list wr) : Prop :=
  Forall (fun w => plain (w_term w) /\ time_ok w) ws /\ forall v w, In v ws -> In w ws -> separate (w_pk v) (w_pk w).
Lemma plain_nz t : plain t -> nz t.
Proof. intros [X _]. exact X. Qed.

(* the entries are those of the writes [ws t] of each term t *)
Definition stored1 (l : list (key * node)) (ws : term -> list wr) : Prop :=
  ksorted l /\ forall r n, In (r, n) l <-> exists t k x d, r = raw t k x /\ n = Node k d /\ at_raw (ws t) t k x = Some d.

Definition within (ws : term -> list wr) (a : list wr) : Prop := forall t w, In w (ws t) -> In w a.

Lemma at_raw_facts (ws : term -> list wr) a t k x d : sound a -> within ws a -> at_raw (ws t) t k x = Some d ->
  plain t /\ (-9223372036854775808 <= x <= 9223372036854775807)%Z /\ exists w, In w a /\ w_pk w = k.
Proof.
  intros [F _] Wi E. apply at_raw_in in E. destruct E as (w&I1&<-&<-&<-&_). apply Wi in I1. rewrite Forall_forall in F. destruct (F w I1) as [P T]. split; [exact P|]. split; [exact T|]. eauto.
Qed.

Lemma klt_in {V} (e1 e2 : list Z * V) : klt e1 e2 -> below (fst e1) (fst e2).
Proof. intros X. exact X. Qed.

(* terms follow each other in the order of the entries *)
Lemma mine_front ws a t l : sound a -> within ws a -> stored1 l ws -> nz t -> (forall r n, In (r, n) l -> upto t (cstr r)) ->
  forall e, In e (mine t l) <-> In e l /\ cstr (fst e) = t.
Proof.
  intros So Wi [Ks St] Ht. assert (W : forall r n, In (r, n) l -> exists u k x, r = raw u k x /\ nz u).
  { intros r n I1. apply St in I1. destruct I1 as (u&k&x&d&->&_&E). destruct (at_raw_facts ws a u k x d So Wi E) as (P&_). exists u, k, x. split; [reflexivity|apply plain_nz; exact P]. }
  clear St. revert W. induction Ks as [|[r n] l Ks IH F]; intros W Fr e; [cbn; tauto|]. cbn [mine fst]. destruct (beqb (cstr r) t) eqn:B.
  - apply beqb_eq in B. cbn [In]. rewrite IH.
    + split; [intros [<-|X]; [split; [left; reflexivity|exact B]|split; [right; apply X|apply X]]|]. intros [[X|X] Y]; [left; exact X|right; split; assumption].
    + intros r' n' I1. apply (W r' n'). right. exact I1.
    + intros r' n' I1. apply (Fr r' n'). right. exact I1.
  - split; [intros []|]. intros [X Y]. exfalso. destruct X as [<-|X]; [cbn in Y; apply beqb_eq in Y; congruence|]. destruct e as [r' n']. cbn [fst] in Y.
    rewrite Forall_forall in F. specialize (F _ X). unfold klt in F. cbn [fst] in F.
    destruct (W r n (or_introl eq_refl)) as (u&k&x&->&Hu). destruct (W r' n' (or_intror X)) as (u'&k'&x'&->&Hu'). rewrite raw_term in * by assumption. subst u'.
    assert (Ne : u <> t) by (intros ->; rewrite (proj2 (beqb_eq t t) eq_refl) in B; discriminate).
    rewrite raw_by_term in F by assumption. specialize (Fr (raw u k x) n (or_introl eq_refl)). rewrite raw_term in Fr by assumption. unfold upto in Fr. rewrite (bcompare_antisym u t), F in Fr. apply Fr. reflexivity.
Qed.

Lemma in_split_term t l : forall e, In e l <-> In e (mine t l) \/ In e (others t l).
Proof. intros e. rewrite <- (mine_others t l) at 1. apply in_app_iff. Qed.

Lemma sorted_app {A} (R : A -> A -> Prop) a b : StronglySorted R (a ++ b) -> StronglySorted R a /\ StronglySorted R b.
Proof.
  induction a as [|c a IH]; cbn; intros X; [split; [constructor|exact X]|]. inversion X as [|? ? Y F]; subst. destruct (IH Y) as [P Q]. split; [|exact Q].
  constructor; [exact P|]. rewrite Forall_app in F. apply F.
Qed.
Lemma sorted_disjoint {V} (a b : list (list Z * V)) e1 e2 : ksorted (a ++ b) -> In e1 a -> In e2 b -> klt e1 e2.
Proof.
  unfold ksorted. induction a as [|c a IH]; cbn; intros X [] I2; inversion X as [|? ? Y F]; subst.
  - rewrite Forall_forall in F. apply F. apply in_app_iff. right. exact I2.
  - apply IH; assumption.
Qed.

(* ---- the last entry of each document ---- *)
Definition lastmark (l : list node) (k : key) : option bool :=
  fold_left (fun o n => if beqb (nkey n) k then Some (ndel n) else o) l None.
Definition rising (l : list node) : Prop := StronglySorted upto (map nkey l).

Lemma mark_start l k o : fold_left (fun o n => if beqb (nkey n) k then Some (ndel n) else o) l o =
  match lastmark l k with Some d => Some d | None => o end.
Proof.
  unfold lastmark. revert o. induction l as [|n l IH]; intros o; [reflexivity|]. cbn [fold_left]. rewrite IH. rewrite (IH (if beqb (nkey n) k then Some (ndel n) else None)).
  destruct (fold_left (fun o n => if beqb (nkey n) k then Some (ndel n) else o) l None); [reflexivity|]. destruct (beqb (nkey n) k); reflexivity.
Qed.
Lemma lastmark_cons n l k : lastmark (n :: l) k = match lastmark l k with Some d => Some d | None => if beqb (nkey n) k then Some (ndel n) else None end.
Proof. unfold lastmark at 1. cbn [fold_left]. apply mark_start. Qed.
Lemma lastmark_none l k : lastmark l k = None <-> forall n, In n l -> nkey n <> k.
Proof.
  induction l as [|m l IH]; [split; [intros _ n []|reflexivity]|]. rewrite lastmark_cons. split.
  - intros E n [->|I1].
    + intros <-. rewrite (proj2 (beqb_eq _ _) eq_refl) in E. destruct (lastmark l (nkey n)); discriminate.
    + destruct (lastmark l k); [discriminate|]. apply (proj1 IH eq_refl n I1).
  - intros X. rewrite (proj2 IH) by (intros n I1; apply X; right; exact I1). destruct (beqb (nkey m) k) eqn:B; [|reflexivity]. apply beqb_eq in B. exfalso. apply (X m (or_introl eq_refl) B).
Qed.

Lemma lasts_in l n : In n (lasts l) -> In n l.
Proof. induction l as [|a [|b r] IH]; [intros []|intros X; exact X|]. rewrite lasts_eq. destruct (beqb (nkey a) (nkey b)); intros X; [right; apply IH; exact X|]. destruct X as [->|X]; [left; reflexivity|right; apply IH; exact X]. Qed.

Lemma lasts_ok l : rising l -> ascending (lasts l) /\ forall k, entry (lasts l) k = lastmark l k.
Proof.
  induction l as [|a r IH]; intros R; [split; [constructor|reflexivity]|]. unfold rising in R. cbn [map] in R. inversion R as [|? ? R' F]; subst.
  rewrite Forall_map in F. destruct (IH R') as [A E]. destruct r as [|b r].
  - split; [repeat constructor|]. intros k. cbn. reflexivity.
  - rewrite lasts_eq. destruct (beqb (nkey a) (nkey b)) eqn:B.
    + split; [exact A|]. intros k. rewrite E, (lastmark_cons a). apply beqb_eq in B. destruct (lastmark (b :: r) k) eqn:L; [reflexivity|].
      rewrite lastmark_none in L. specialize (L b (or_introl eq_refl)). rewrite B. destruct (beqb (nkey b) k) eqn:B2; [apply beqb_eq in B2; contradiction|reflexivity].
    + assert (Lt : Forall (fun m => below (nkey a) (nkey m)) (b :: r)).
      { inversion F as [|? ? F1 F2]; subst. assert (Lb : below (nkey a) (nkey b)). { apply upto_cases in F1. destruct F1 as [F1|F1]; [exact F1|]. apply beqb_eq in F1. congruence. }
        constructor; [exact Lb|]. unfold rising in R'. cbn [map] in R'. inversion R' as [|? ? _ G]; subst. rewrite Forall_map in G. eapply Forall_impl; [|exact G]. intros m X. cbn in X. eapply below_upto; eauto. }
      split.
      * apply asc_cons. split; [exact A|]. apply Forall_forall. intros m I1. apply lasts_in in I1. rewrite Forall_forall in Lt. apply Lt. exact I1.
      * intros k. cbn [entry]. rewrite E, (lastmark_cons a). destruct (beqb (nkey a) k) eqn:B2.
        -- apply beqb_eq in B2. subst k. rewrite (proj2 (lastmark_none (b :: r) (nkey a))); [reflexivity|]. intros m I1 X. rewrite Forall_forall in Lt. specialize (Lt m I1). rewrite X in Lt. apply (below_irrefl _ Lt).
        -- destruct (lastmark (b :: r) k); reflexivity.
Qed.

(* entries of one term: sorted by document, then by time *)
Lemma raw_rising a t E : sound a -> ksorted E -> (forall r n, In (r, n) E -> exists x, r = raw t (nkey n) x /\ exists w, In w a /\ w_pk w = nkey n) ->
  rising (map snd E).
Proof.
  intros [_ Sp] Ks. unfold rising. induction Ks as [|[r n] E Ks IH F]; intros W; [constructor|]. cbn [map snd]. constructor.
  - apply IH. intros r' n' I1. apply W. right. exact I1.
  - rewrite Forall_map, Forall_map. apply Forall_forall. intros [r' n'] I1. cbn [snd]. rewrite Forall_forall in F. specialize (F _ I1). unfold klt in F. cbn [fst] in F.
    destruct (W r n (or_introl eq_refl)) as (x&->&w&Iw&Kw). destruct (W r' n' (or_intror I1)) as (x'&->&w'&Iw'&Kw').
    destruct (list_eq_dec Z.eq_dec (nkey n) (nkey n')) as [Eq|Ne]; [rewrite Eq; apply upto_refl|].
    rewrite raw_by_pk in F; [apply below_le; exact F| | |exact Ne]; rewrite <- Kw, <- Kw'; apply Sp; assumption.
Qed.

(* the last mark of a sorted list of entries is the one with the latest time *)
Lemma latest_mark t E k x d : ksorted E ->
  (forall r n, In (r, n) E -> exists y, r = raw t (nkey n) y /\ (-9223372036854775808 <= y <= 9223372036854775807)%Z) ->
  (-9223372036854775808 <= x <= 9223372036854775807)%Z ->
  In (raw t k x, Node k d) E -> (forall y e, (-9223372036854775808 <= y <= 9223372036854775807)%Z -> In (raw t k y, Node k e) E -> (y <= x)%Z) -> lastmark (map snd E) k = Some d.
Proof.
  intros Ks. induction Ks as [|[r n] E Ks IH F]; intros W Hx I1 Mx; [destruct I1|]. cbn [map snd]. rewrite lastmark_cons. destruct I1 as [Eq|I1].
  - injection Eq as -> ->. cbn [nkey ndel]. rewrite (proj2 (beqb_eq k k) eq_refl). rewrite (proj2 (lastmark_none (map snd E) k)); [reflexivity|].
    intros m Im Km. apply in_map_iff in Im. destruct Im as ([r m']&E2&Im). cbn in E2. subst m'. destruct (W r m (or_intror Im)) as (y&->&Hy).
    rewrite Forall_forall in F. specialize (F _ Im). unfold klt in F. cbn [fst] in F. rewrite Km in F. rewrite raw_by_time in F by assumption.
    destruct m as [mk md]. cbn in Km. subst mk. specialize (Mx y md Hy (or_intror Im)). rewrite Z.compare_lt_iff in F. lia.
  - rewrite (IH (fun r n I => W r n (or_intror I)) Hx I1 (fun y e Hy I => Mx y e Hy (or_intror I))). reflexivity.
Qed.

Lemma filter_mark rg l k : in_range (fst rg) (snd rg) k -> lastmark (filter (inside rg) l) k = lastmark l k.
Proof.
  intros R. induction l as [|n l IH]; [reflexivity|]. cbn [filter]. destruct (inside rg n) eqn:I1.
  - rewrite !lastmark_cons, IH. reflexivity.
  - rewrite IH, lastmark_cons. destruct (beqb (nkey n) k) eqn:B; [|destruct (lastmark l k); reflexivity]. apply beqb_eq in B. subst k. apply inside_in in R. congruence.
Qed.
Lemma rising_filter f l : rising l -> rising (filter f l).
Proof.
  unfold rising. induction l as [|n l IH]; intros R; [constructor|]. cbn [map] in R. inversion R as [|? ? R' F]; subst. cbn [filter]. destruct (f n); [|apply IH; exact R'].
  cbn [map]. constructor; [apply IH; exact R'|]. rewrite Forall_map in *. apply Forall_forall. intros m I1. apply filter_In in I1. rewrite Forall_forall in F. apply F. tauto.
Qed.

(* what the iterator over level 1 gives for a term *)
Lemma ours_ok ws a rg t l : sound a -> within ws a -> mono (ws t) -> stored1 l ws -> nz t -> (forall r n, In (r, n) l -> upto t (cstr r)) ->
  ascending (lasts (ours t rg l)) /\
  forall k, in_range (fst rg) (snd rg) k -> entry (lasts (ours t rg l)) k = lastop (ws t) t k.
Proof.
  intros So Wi Mo St Ht Fr. pose proof (mine_front ws a t l So Wi St Ht Fr) as M. destruct St as [Ks St].
  assert (Km : ksorted (mine t l)) by (rewrite <- (mine_others t l) in Ks; apply sorted_app in Ks; apply Ks).
  assert (W : forall r n, In (r, n) (mine t l) -> exists x d, r = raw t (nkey n) x /\ n = Node (nkey n) d /\ at_raw (ws t) t (nkey n) x = Some d).
  { intros r n I1. apply M in I1. destruct I1 as [I1 T]. apply St in I1. destruct I1 as (u&k&x&d&->&->&E). cbn [fst nkey] in *.
    destruct (at_raw_facts ws a u k x d So Wi E) as (P&_). rewrite raw_term in T by (apply plain_nz; exact P). subst u. exists x, d. auto. }
  assert (Ri : rising (map snd (mine t l))).
  { apply (raw_rising a t (mine t l) So Km). intros r n I1. destruct (W r n I1) as (x&d&->&_&E). exists x. split; [reflexivity|].
    destruct (at_raw_facts ws a t (nkey n) x d So Wi E) as (_&_&X). exact X. }
  destruct (lasts_ok (ours t rg l) (rising_filter _ _ Ri)) as [A En]. split; [exact A|]. intros k Rk. rewrite En. unfold ours. rewrite filter_mark by exact Rk.
  destruct (lastop (ws t) t k) as [d|] eqn:L.
  - destruct (lastop_latest (ws t) t k d Mo L) as (x&E&Mx). destruct (at_raw_facts ws a t k x d So Wi E) as (P&Hx&_).
    apply (latest_mark t (mine t l) k x d Km); [|exact Hx| |].
    + intros r n I1. destruct (W r n I1) as (y&d'&->&_&E'). exists y. split; [reflexivity|]. destruct (at_raw_facts ws a t (nkey n) y d' So Wi E') as (_&Hy&_). exact Hy.
    + apply M. split; [|apply raw_term; exact Ht]. apply St. exists t, k, x, d. auto.
    + intros y e Hy I1. apply M in I1. destruct I1 as [I1 _]. apply St in I1. destruct I1 as (u&k2&x2&d2&E4&E5&E6). injection E5 as E5 E5'. subst k2 d2.
      destruct (at_raw_facts ws a u k x2 e So Wi E6) as (Pu&Hx2&_). destruct (raw_inj t u k k y x2 Ht (plain_nz _ Pu) Hy Hx2 E4) as (<-&_&<-). apply (Mx y e E6).
  - apply lastmark_none. intros n I1. apply in_map_iff in I1. destruct I1 as ([r n']&E2&I1). cbn in E2. subst n'. destruct (W r n I1) as (x&d&_&_&E). apply at_raw_in in E.
    destruct E as (w&Iw&T&K&_). rewrite lastop_none in L. intros X. apply (L w Iw). split; [exact T|congruence].
Qed.

(* ---- slices of the writes ---- *)
Definition slice (a b : nat) (ws : list wr) : list wr := skipn a (firstn b ws).
Lemma slice_first a b ws : a <= b -> firstn b ws = firstn a ws ++ slice a b ws.
Proof. intros L. unfold slice. rewrite <- (firstn_skipn a (firstn b ws)) at 1. f_equal. rewrite firstn_firstn. f_equal. lia. Qed.
Lemma slice_rest a b ws : a <= b -> b <= length ws -> skipn a ws = slice a b ws ++ skipn b ws.
Proof. intros L1 L2. unfold slice. rewrite <- (firstn_skipn b ws) at 1. rewrite skipn_app. f_equal. rewrite firstn_length_le by exact L2. replace (a - b) with 0 by lia. reflexivity. Qed.
Lemma slice_in a b ws w : In w (slice a b ws) -> In w (firstn b ws).
Proof. unfold slice. intros X. rewrite <- (firstn_skipn a (firstn b ws)). apply in_app_iff. right. exact X. Qed.
Lemma firstn_in {A} n (l : list A) x : In x (firstn n l) -> In x l.
Proof. intros X. rewrite <- (firstn_skipn n l). apply in_app_iff. left. exact X. Qed.
Lemma skipn_in {A} n (l : list A) x : In x (skipn n l) -> In x l.
Proof. intros X. rewrite <- (firstn_skipn n l). apply in_app_iff. right. exact X. Qed.
Lemma slice_all a ws : slice a (length ws) ws = skipn a ws.
Proof. unfold slice. rewrite firstn_all. reflexivity. Qed.
Lemma slice_same a ws : slice a a ws = [].
Proof. unfold slice. apply length_zero_iff_nil. rewrite skipn_length, firstn_length. lia. Qed.
Lemma firstn_more {A} n (a b : list A) : n <= length a -> firstn n (a ++ b) = firstn n a.
Proof. intros L. rewrite firstn_app. replace (n - length a) with 0 by lia. cbn [firstn]. apply app_nil_r. Qed.
Lemma skipn_more {A} n (a b : list A) : n <= length a -> skipn n (a ++ b) = skipn n a ++ b.
Proof. intros L. rewrite skipn_app. replace (n - length a) with 0 by lia. reflexivity. Qed.

(* ---- the invariant ---- *)
Definition within_range (rg : key * key) (k : key) : Prop := in_range (fst rg) (snd rg) k.

Definition list_state (h : story) (low : term -> nat) (s : index) (t : term) (k : key) : Prop :=
  holds (firstn (low t) (all h)) t k = (match entry (list_at t (lv3 (i_lv s))) k with Some false => true | _ => false end) /\
  holds (firstn (shown h t) (all h)) t k =
    match entry (list_at t (lv2 (i_lv s))) k with Some d => negb d | None => holds (firstn (low t) (all h)) t k end.

Record inv (h : story) (low : term -> nat) (s : index) : Prop := {
  v_sound : sound (all h);
  v_mono : mono (all h);
  v_began : began h <= length (all h);
  v_fresh : forall v w, In v (firstn (began h) (all h)) -> In w (skipn (began h) (all h)) -> same_entry v w -> (w_time v < w_time w)%Z;
  v_shown : forall t, shown h t <= began h;
  v_low : forall t, low t <= shown h t;
  v_one : stored1 (lv1 (i_lv s)) (fun t => skipn (shown h t) (all h));
  v_two : ksorted (lv2 (i_lv s));
  v_three : ksorted (lv3 (i_lv s));
  v_asc2 : forall t, ascending (list_at t (lv2 (i_lv s)));
  v_asc3 : forall t, ascending (list_at t (lv3 (i_lv s)));
  v_range : forall k, within_range (i_range s) k -> within_range (m_range (i_mem s)) k;
  v_pass : match m_pass (i_mem s) with
           | None => True
           | Some (Pass rest mv) =>
               stored1 rest (fun t => slice (shown h t) (began h) (all h)) /\
               match mv with None => True | Some (t, l) => kget t (lv2 (i_lv s)) = Some l end
           end;
  v_lists : forall t k, within_range (i_range s) k -> list_state h low s t k
}.

Definition sink (h : story) (low : term -> nat) (e : event) : term -> nat :=
  match e with To3 t => fun u => if beqb u t then shown h u else low u | _ => low end.

Lemma within_skip (f : term -> nat) a : within (fun t => skipn (f t) a) a.
Proof. intros t w X. eapply skipn_in; eauto. Qed.
Lemma within_slice (f g : term -> nat) a : within (fun t => slice (f t) (g t) a) a.
Proof. intros t w X. apply slice_in in X. eapply firstn_in; eauto. Qed.

Lemma stored1_ext l ws ws' : (forall t k x, at_raw (ws t) t k x = at_raw (ws' t) t k x) -> stored1 l ws -> stored1 l ws'.
Proof.
  intros E [K S1]. split; [exact K|]. intros r n. rewrite S1. split; intros (t&k&x&d&A&B&C); exists t, k, x, d; rewrite E in *; auto.
Qed.

(* one more entry *)
Lemma put_stored l ws w a : sound a -> within ws a -> In w a -> stored1 l ws ->
  stored1 (kput (raw (w_term w) (w_pk w) (w_time w)) (Node (w_pk w) (w_del w)) l) (fun t => ws t ++ [w]).
Proof.
  intros So Wi Iw [K S1]. split; [apply kput_sorted; exact K|]. intros r n.
  rewrite <- kget_in by (apply kput_sorted; exact K). rewrite kget_put by exact K.
  pose proof So as [F _]. rewrite Forall_forall in F. destruct (F w Iw) as [Pw Tw].
  destruct (beqb r (raw (w_term w) (w_pk w) (w_time w))) eqn:B.
  - apply beqb_eq in B. subst r. split.
    + intros E. injection E as <-. exists (w_term w), (w_pk w), (w_time w), (w_del w). do 2 (split; [reflexivity|]). rewrite at_raw_snoc, (proj2 (concerns_iff _ _ w) (conj eq_refl eq_refl)), Z.eqb_refl. reflexivity.
    + intros (t&k&x&d&E1&->&E3). assert (X : plain t /\ (-9223372036854775808 <= x <= 9223372036854775807)%Z).
      { destruct (at_raw_facts (fun t => ws t ++ [w]) a t k x d So) as (X&Y&_); [|exact E3|split; assumption]. intros u v Iv. apply in_app_iff in Iv. destruct Iv as [Iv|[<-|[]]]; [eapply Wi; eauto|exact Iw]. }
      destruct X as [Pt Tx]. destruct (raw_inj _ _ _ _ _ _ (plain_nz _ Pw) (plain_nz _ Pt) Tw Tx E1) as (<-&<-&<-).
      rewrite at_raw_snoc, (proj2 (concerns_iff _ _ w) (conj eq_refl eq_refl)), Z.eqb_refl in E3. cbn [andb] in E3. injection E3 as <-. reflexivity.
  - rewrite kget_in by exact K. rewrite S1. split; intros (t&k&x&d&->&->&E3); exists t, k, x, d; do 2 (split; [reflexivity|]); rewrite at_raw_snoc in *.
    + destruct (concerns t k w && (w_time w =? x)%Z) eqn:C; [|exact E3]. exfalso. apply andb_true_iff in C. destruct C as [C1 C2]. apply concerns_iff in C1. destruct C1 as [<- <-]. apply Z.eqb_eq in C2. subst x.
      rewrite (proj2 (beqb_eq _ _) eq_refl) in B. discriminate.
    + destruct (concerns t k w && (w_time w =? x)%Z) eqn:C; [|exact E3]. exfalso. apply andb_true_iff in C. destruct C as [C1 C2]. apply concerns_iff in C1. destruct C1 as [<- <-]. apply Z.eqb_eq in C2. subst x.
      rewrite (proj2 (beqb_eq _ _) eq_refl) in B. discriminate.
Qed.

Lemma writes_stored new : forall lv ws a, sound a -> within ws a -> (forall w, In w new -> In w a) -> stored1 (lv1 lv) ws ->
  stored1 (lv1 (fold_left write1 new lv)) (fun t => ws t ++ new).
Proof.
  induction new as [|w new IH]; intros lv ws a So Wi Iw S1.
  - cbn. apply (stored1_ext _ ws); [|exact S1]. intros. rewrite app_nil_r. reflexivity.
  - cbn [fold_left]. apply (stored1_ext _ (fun t => (ws t ++ [w]) ++ new)); [intros; rewrite <- app_assoc; reflexivity|].
    apply (IH _ _ a So); [|intros v Iv; apply Iw; right; exact Iv|].
    + intros t v Iv. apply in_app_iff in Iv. destruct Iv as [Iv|[<-|[]]]; [eapply Wi; eauto|apply Iw; left; reflexivity].
    + cbn. apply (put_stored _ _ _ a So Wi); [apply Iw; left; reflexivity|exact S1].
Qed.
Lemma writes_other new : forall lv, lv2 (fold_left write1 new lv) = lv2 lv /\ lv3 (fold_left write1 new lv) = lv3 lv.
Proof. induction new as [|w new IH]; intros lv; [split; reflexivity|]. cbn [fold_left]. destruct (IH (write1 lv w)) as [A B]. rewrite A, B. split; reflexivity. Qed.

Lemma del_all_in ks : forall l, ksorted l -> ksorted (del_all ks l) /\ forall r n, In (r, n) (del_all ks l) <-> In (r, n) l /\ ~ In r ks.
Proof.
  induction ks as [|k ks IH]; intros l K; [split; [exact K|cbn; tauto]|]. cbn [del_all fold_left]. destruct (IH (kdel k l) (kfilter_sorted _ _ K)) as [A B].
  split; [exact A|]. intros r n. unfold del_all in B. rewrite B. unfold kdel, kfilter. rewrite filter_In. cbn [fst In]. rewrite negb_true_iff.
  split.
  - intros [[X Y] Z]. split; [exact X|]. intros [<-|W]; [|contradiction]. rewrite (proj2 (beqb_eq _ _) eq_refl) in Y. discriminate.
  - intros [X Y]. split; [split; [exact X|]|tauto]. destruct (beqb r k) eqn:B2; [|reflexivity]. apply beqb_eq in B2. subst. exfalso. apply Y. left. reflexivity.
Qed.

Lemma list_at_put t l u lv : ksorted lv -> list_at u (kput t l lv) = if beqb u t then l else list_at u lv.
Proof. intros K. unfold list_at. rewrite kget_put by exact K. destruct (beqb u t); reflexivity. Qed.
Lemma list_at_del t u lv : ksorted lv -> list_at u (kdel t lv) = if beqb u t then [] else list_at u lv.
Proof. intros K. unfold list_at, kdel. rewrite kget_filter by exact K. destruct (beqb u t); reflexivity. Qed.
Lemma list_at_store t l u lv : ksorted lv -> list_at u (match l with [] => kdel t lv | _ => kput t l lv end) = if beqb u t then l else list_at u lv.
Proof. intros K. destruct l; [apply list_at_del; exact K|apply list_at_put; exact K]. Qed.
Lemma store_sorted t (l : list node) lv : ksorted lv -> ksorted (match l with [] => kdel t lv | _ => kput t l lv end).
Proof. intros K. destruct l; [apply kfilter_sorted; exact K|apply kput_sorted; exact K]. Qed.

(* range removal leaves the lists alone inside the range *)
Lemma remove_ok rg t lv lv' : ksorted lv -> (forall u, ascending (list_at u lv)) -> remove_range rg t lv = Some lv' ->
  ksorted lv' /\ (forall u, ascending (list_at u lv')) /\ forall u k, within_range rg k -> entry (list_at u lv') k = entry (list_at u lv) k.
Proof.
  intros K A. unfold remove_range. assert (Same : ksorted lv /\ (forall u, ascending (list_at u lv)) /\ forall u k, within_range rg k -> entry (list_at u lv) k = entry (list_at u lv) k) by auto.
  destruct (kget t lv) as [l|] eqn:G; [|intros E; injection E as <-; exact Same].
  destruct (negb (bltb t bound)); [intros E; injection E as <-; exact Same|].
  destruct (match l with [] => false | a :: r => bleb (fst rg) (nkey a) && match snd rg with [] => true | _ :: _ => bltb (nkey (last r a)) (snd rg) end end); [intros E; injection E as <-; exact Same|].
  assert (Lt : list_at t lv = l) by (unfold list_at; rewrite G; reflexivity).
  destruct (merge22_ok rg [] l false) as (a&b&E0); [constructor|rewrite <- Lt; apply A|]. rewrite E0. cbv iota beta. set (res := keep false (mrg (filter (inside rg) []) (filter (inside rg) l))).
  assert (Er : res = filter (inside rg) l). { unfold res. rewrite keep_false. reflexivity. }
  clearbody res. subst res. destruct ((0 <? length l) && (length (filter (inside rg) l) =? length l)); [intros E; injection E as <-; exact Same|].
  intros E. assert (Ev : lv' = match filter (inside rg) l with [] => kdel t lv | _ => kput t (filter (inside rg) l) lv end) by congruence. subst lv'.
  split; [apply store_sorted; exact K|]. split.
  - intros u. rewrite list_at_store by exact K. destruct (beqb u t); [|apply A]. apply filter_asc. rewrite <- Lt. apply A.
  - intros u k R. rewrite list_at_store by exact K. destruct (beqb u t) eqn:B; [|reflexivity]. apply beqb_eq in B. subst u. rewrite Lt. apply entry_filter_key. intros n _ <-. apply inside_in. exact R.
Qed.

(* ---- each event ---- *)
Lemma inv_frame h low s s' : inv h low s -> i_lv s' = i_lv s -> i_range s' = i_range s -> m_pass (i_mem s') = m_pass (i_mem s) ->
  m_range (i_mem s') = m_range (i_mem s) -> inv h low s'.
Proof.
  intros [] E1 E2 E3 E4. constructor; rewrite ?E1, ?E2, ?E3, ?E4; try assumption. intros t k R. unfold list_state. rewrite E1. apply v_lists0. exact R.
Qed.
Lemma inv_idle h low s s' : inv h low s -> i_lv s' = i_lv s -> i_range s' = i_range s -> m_pass (i_mem s') = None ->
  (forall k, within_range (i_range s') k -> within_range (m_range (i_mem s')) k) -> inv h low s'.
Proof.
  intros [] E1 E2 E3 E4. constructor; rewrite ?E1, ?E2, ?E3; try assumption; [rewrite <- E2; exact E4|exact Logic.I|]. intros t k R. unfold list_state. rewrite E1. apply v_lists0. exact R.
Qed.

Definition lists_alike (rg : key * key) (lv lv' : levels) : Prop :=
  forall u k, within_range rg k -> entry (list_at u (lv2 lv')) k = entry (list_at u (lv2 lv)) k /\ entry (list_at u (lv3 lv')) k = entry (list_at u (lv3 lv)) k.

Lemma inv_removed h low s l2 l3 : inv h low s -> m_pass (i_mem s) = None -> ksorted l2 -> ksorted l3 ->
  (forall u, ascending (list_at u l2)) -> (forall u, ascending (list_at u l3)) ->
  (forall u k, within_range (m_range (i_mem s)) k -> entry (list_at u l2) k = entry (list_at u (lv2 (i_lv s))) k /\ entry (list_at u l3) k = entry (list_at u (lv3 (i_lv s))) k) ->
  inv h low (set_lv s (Levels (lv1 (i_lv s)) l2 l3)).
Proof.
  intros [] Np K2 K3 A2 A3 Al. constructor; cbn [set_lv i_lv i_range i_mem lv1 lv2 lv3]; try assumption.
  - rewrite Np. exact Logic.I.
  - intros t k R. specialize (v_lists0 t k R). unfold list_state in *. cbn [set_lv i_lv lv2 lv3]. destruct (Al t k (v_range0 k R)) as [E2 E3]. rewrite E2, E3. exact v_lists0.
Qed.

Lemma inv_range h low s r : inv h low s -> (forall k, within_range r k -> within_range (i_range s) k) -> inv h low (Index (i_lv s) r (i_mem s)).
Proof. intros [] Sub. constructor; cbn [i_lv i_range i_mem]; try assumption; intros; [apply v_range0; auto|]. apply (v_lists0 t k). auto. Qed.

Lemma inv_write h low s ws : inv h low s -> sound (all h ++ ws) -> mono ws ->
  (forall v w, In v (all h) -> In w ws -> same_entry v w -> (w_time v < w_time w)%Z) ->
  inv (tell h (Write ws)) low (set_lv s (fold_left write1 ws (i_lv s))).
Proof.
  intros [] So Mo Fr. pose proof (writes_other ws (i_lv s)) as [E2 E3].
  assert (Ls : forall t, shown h t <= length (all h)) by (intros t; specialize (v_shown0 t); lia).
  assert (Ll : forall t, low t <= length (all h)) by (intros t; specialize (Ls t); specialize (v_low0 t); lia).
  constructor; cbn [tell all began shown set_lv i_lv i_range i_mem]; rewrite ?E2, ?E3; try assumption.
  - apply ford_app. split; [exact v_mono0|]. split; [exact Mo|]. intros v w Iv Iw X. specialize (Fr v w Iv Iw X). lia.
  - rewrite app_length. lia.
  - intros v w. rewrite firstn_more, skipn_more by assumption. rewrite in_app_iff. intros Iv [Iw|Iw] X; [apply v_fresh0; assumption|]. apply Fr; [eapply firstn_in; eauto|assumption|exact X].
  - apply (stored1_ext _ (fun t => skipn (shown h t) (all h) ++ ws)); [intros; rewrite skipn_more by apply Ls; reflexivity|].
    apply (writes_stored ws (i_lv s) _ (all h ++ ws) So); [|intros w Iw; apply in_app_iff; right; exact Iw|exact v_one0].
    intros t w Iw. apply in_app_iff. left. eapply skipn_in; eauto.
  - destruct (m_pass (i_mem s)) as [[rest mv]|]; [|exact Logic.I]. destruct v_pass0 as [P1 P2]. split; [|exact P2].
    apply (stored1_ext _ (fun t => slice (shown h t) (began h) (all h))); [|exact P1]. intros. unfold slice. rewrite firstn_more by assumption. reflexivity.
  - intros t k R. specialize (v_lists0 t k R). unfold list_state in *. cbn [tell all began shown set_lv i_lv]. rewrite E2, E3, !firstn_more by auto. exact v_lists0.
Qed.

Lemma inv_begin h low s m c f : inv h low s -> m = m_range (i_mem s) ->
  inv (tell h Begin) low (Index (i_lv s) (i_range s) (Mem m c [] (Some (Pass (kfilter (fun k => bltb k bound) (lv1 (i_lv s))) None)) f)).
Proof.
  intros [] ->. constructor; cbn [tell all began shown i_lv i_range i_mem m_range m_pass]; try assumption.
  - lia.
  - intros v w _. rewrite skipn_all. intros [].
  - intros t. specialize (v_shown0 t). lia.
  - split; [|exact Logic.I]. destruct v_one0 as [K S1]. split; [apply kfilter_sorted; exact K|]. intros r n. unfold kfilter. rewrite filter_In, S1. cbn [fst].
    split.
    + intros [(t&k&x&d&A&B&C) _]. exists t, k, x, d. rewrite slice_all. auto.
    + intros (t&k&x&d&A&B&C). rewrite slice_all in C. split; [exists t, k, x, d; auto|]. subst r.
      destruct (at_raw_facts (fun t => skipn (shown h t) (all h)) (all h) t k x d v_sound0 (within_skip _ _) C) as (P&_). unfold bltb. rewrite raw_bound; [reflexivity|apply P].
Qed.

Lemma inv_end h low s m : inv h low s -> m_pass (i_mem s) = Some (Pass [] None) -> m_range m = m_range (i_mem s) -> m_pass m = None ->
  inv (tell h End) low (Index (i_lv s) (i_range s) m).
Proof.
  intros [] Em Er Ep. rewrite Em in v_pass0. destruct v_pass0 as [[_ S1] _].
  assert (Em0 : forall t k, lastop (slice (shown h t) (began h) (all h)) t k = None).
  { intros t k. apply lastop_none. intros w Iw [<- <-]. destruct (at_raw_some _ _ Iw) as (d&E). apply (S1 (raw (w_term w) (w_pk w) (w_time w)) (Node (w_pk w) d)). eexists _, _, _, _. split; [reflexivity|]. split; [reflexivity|]. exact E. }
  constructor; cbn [tell all began shown i_lv i_range i_mem]; try assumption.
  - lia.
  - intros t. specialize (v_low0 t). specialize (v_shown0 t). lia.
  - apply (stored1_ext _ (fun t => skipn (shown h t) (all h))); [|exact v_one0]. intros t k x. rewrite (slice_rest (shown h t) (began h)) by auto. rewrite at_raw_app.
    destruct (at_raw (skipn (began h) (all h)) t k x); [reflexivity|]. destruct (at_raw (slice (shown h t) (began h) (all h)) t k x) eqn:E; [|reflexivity].
    exfalso. apply (S1 (raw t k x) (Node k b)). exists t, k, x, b. auto.
  - rewrite Er. exact v_range0.
  - rewrite Ep. exact Logic.I.
  - intros t k R. specialize (v_lists0 t k R). unfold list_state in *. cbn [tell all began shown i_lv]. destruct v_lists0 as [A B]. split; [exact A|].
    rewrite (slice_first (shown h t) (began h)) by auto. rewrite holds_app, Em0. exact B.
Qed.


Lemma inv_to2 h low c s r n rest lv' p : inv h low s -> m_pass (i_mem s) = Some (Pass ((r, n) :: rest) None) ->
  to2 c (m_range (i_mem s)) ((r, n) :: rest) (i_lv s) = Some (lv', p) ->
  inv (tell h (To2 (cstr r))) low (Index lv' (i_range s) (set_pass (i_mem s) (Some p))).
Proof.
  intros [] Em. rewrite Em in v_pass0. destruct v_pass0 as [St _]. set (l := (r, n) :: rest) in *. set (t := cstr r). unfold to2. unfold l at 1. cbv iota beta zeta. fold t.
  set (rg := m_range (i_mem s)) in *.
  destruct (merge12_ok t rg l (list_at t (lv2 (i_lv s))) (v_asc4 t)) as (i&b&Eq&Er&Ed). rewrite Eq. cbv iota beta.
  set (res := mrg (lasts (ours t rg l)) (filter (inside rg) (list_at t (lv2 (i_lv s))))) in *. rewrite Er, Ed.
  set (ws := fun u => slice (shown h u) (began h) (all h)) in *. assert (Wi : within ws (all h)) by apply within_slice.
  assert (Nz : nz t /\ forall r' n', In (r', n') l -> exists u k x d, r' = raw u k x /\ n' = Node k d /\ at_raw (ws u) u k x = Some d /\ nz u).
  { assert (X : forall r' n', In (r', n') l -> exists u k x d, r' = raw u k x /\ n' = Node k d /\ at_raw (ws u) u k x = Some d /\ nz u).
    { intros r' n' I1. apply St in I1. destruct I1 as (u&k&x&d&A&B&C). exists u, k, x, d. do 3 (split; [assumption|]). destruct (at_raw_facts ws (all h) u k x d v_sound0 Wi C) as (P&_). apply plain_nz. exact P. }
    split; [|exact X]. destruct (X r n (or_introl eq_refl)) as (u&k&x&d&A&_&_&Nu). unfold t. rewrite A, raw_term; assumption. }
  destruct Nz as [Ht Wl].
  assert (Fr : forall r' n', In (r', n') l -> upto t (cstr r')).
  { intros r' n' [I1|I1]; [injection I1 as <- <-; apply upto_refl|]. destruct (Wl r n (or_introl eq_refl)) as (u&k&x&d&A&_&_&Nu). destruct (Wl r' n' (or_intror I1)) as (u'&k'&x'&d'&A'&_&_&Nu').
    destruct St as [K _]. unfold l, ksorted in K. inversion K as [|? ? _ F]; subst. rewrite Forall_forall in F. specialize (F _ I1). unfold klt in F. cbn [fst] in F.
    unfold t. rewrite !raw_term by assumption. destruct (list_eq_dec Z.eq_dec u u') as [->|Ne]; [apply upto_refl|]. rewrite raw_by_term in F by assumption. apply below_le. exact F. }
  assert (Mo : mono (ws t)) by (unfold ws, slice; apply mono_skipn, mono_firstn; assumption).
  pose proof (mine_front ws (all h) t l v_sound0 Wi St Ht Fr) as Mi.
  destruct (ours_ok ws (all h) rg t l v_sound0 Wi Mo St Ht Fr) as [Ao Eo].
  assert (Ar : ascending res) by (apply mrg_asc; [exact Ao|apply filter_asc; auto]).
  intros E. assert (E1 : lv' = Levels (del_all (map fst (mine t l)) (lv1 (i_lv s))) (kput t res (lv2 (i_lv s))) (lv3 (i_lv s))) by congruence.
  assert (E2 : p = Pass (others t l) (if second_length c <=? length res then Some (t, res) else None)) by congruence. subst lv' p. clear E.
  destruct v_one0 as [K1 S1]. destruct (del_all_in (map fst (mine t l)) (lv1 (i_lv s)) K1) as [K1' D1].
  constructor; cbn [tell all began shown i_lv i_range i_mem set_pass m_range m_pass lv1 lv2 lv3]; try assumption.
  - intros u. destruct (beqb u t); [lia|apply v_shown0].
  - intros u. specialize (v_low0 u). specialize (v_shown0 u). destruct (beqb u t); lia.
  - split; [exact K1'|]. intros r' n'. rewrite D1, S1. split.
    + intros [(u&k&x&d&A&B&C) Nm]. exists u, k, x, d. do 2 (split; [assumption|]). destruct (beqb u t) eqn:Bu; [|exact C]. apply beqb_eq in Bu. subst u.
      rewrite (slice_rest (shown h t) (began h)) in C by auto. rewrite at_raw_app in C. destruct (at_raw (skipn (began h) (all h)) t k x); [exact C|].
      exfalso. apply Nm. apply in_map_iff. exists (r', n'). split; [reflexivity|]. apply Mi. split; [|cbn [fst]; rewrite A; apply raw_term; exact Ht]. apply St. exists t, k, x, d. auto.
    + intros (u&k&x&d&A&B&C). destruct (beqb u t) eqn:Bu.
      * apply beqb_eq in Bu. subst u. split.
        -- exists t, k, x, d. do 2 (split; [assumption|]). rewrite (slice_rest (shown h t) (began h)) by auto. rewrite at_raw_app, C. reflexivity.
        -- intros I1. apply in_map_iff in I1. destruct I1 as ([r2 n2]&E3&I1). cbn [fst] in E3. subst r2. apply Mi in I1. destruct I1 as [I1 _].
           destruct (Wl _ _ I1) as (u&k2&x2&d2&A2&_&C2&Nu). pose proof (at_raw_facts ws (all h) u k2 x2 d2 v_sound0 Wi C2) as (_&Hx2&_).
           pose proof (at_raw_facts (fun _ => skipn (began h) (all h)) (all h) t k x d v_sound0 (within_skip (fun _ => began h) _) C) as (_&Hx&_).
           rewrite A in A2. destruct (raw_inj _ _ _ _ _ _ Ht Nu Hx Hx2 A2) as (<-&<-&<-).
           apply at_raw_in in C. destruct C as (w&Iw&W1&W2&W3&_). apply at_raw_in in C2. destruct C2 as (v&Iv&V1&V2&V3&_). apply slice_in in Iv.
           assert (X : (w_time v < w_time w)%Z) by (apply v_fresh0; [assumption|assumption|unfold same_entry; split; congruence]). lia.
      * split; [exists u, k, x, d; auto|]. intros I1. apply in_map_iff in I1. destruct I1 as ([r2 n2]&E3&I1). cbn [fst] in E3. subst r2. apply Mi in I1. destruct I1 as [_ I1]. cbn [fst] in I1.
        pose proof (at_raw_facts _ (all h) u k x d v_sound0 (within_skip (shown h) _) C) as (P&_). rewrite A, raw_term in I1 by (apply plain_nz; exact P). subst u. rewrite (proj2 (beqb_eq _ _) eq_refl) in Bu. discriminate.
  - apply kput_sorted. assumption.
  - intros u. rewrite list_at_put by assumption. destruct (beqb u t); [exact Ar|auto].
  - split.
    + destruct St as [Kl Sl]. pose proof Kl as Ka. rewrite <- (mine_others t l) in Ka. split; [apply sorted_app in Ka; apply Ka|]. intros r' n'. split.
      * intros I1. pose proof (proj2 (in_split_term t l (r', n')) (or_intror I1)) as I2. apply Sl in I2. destruct I2 as (u&k&x&d&A&B&C). exists u, k, x, d. do 2 (split; [assumption|]).
        destruct (beqb u t) eqn:Bu; [|exact C]. exfalso. apply beqb_eq in Bu. subst u.
        assert (I3 : In (r', n') (mine t l)). { apply Mi. split; [apply Sl; exists t, k, x, d; auto|]. cbn [fst]. rewrite A. apply raw_term. exact Ht. }
        apply (below_irrefl r'). exact (sorted_disjoint _ _ _ _ Ka I3 I1).
      * intros (u&k&x&d&A&B&C). destruct (beqb u t) eqn:Bu; [rewrite slice_same in C; discriminate|]. assert (I2 : In (r', n') l) by (apply Sl; exists u, k, x, d; auto).
        apply (in_split_term t) in I2. destruct I2 as [I2|I2]; [|exact I2]. exfalso. apply Mi in I2. destruct I2 as [_ I2]. cbn [fst] in I2.
        destruct (at_raw_facts ws (all h) u k x d v_sound0 Wi C) as (P&_). rewrite A, raw_term in I2 by (apply plain_nz; exact P). subst u. rewrite (proj2 (beqb_eq _ _) eq_refl) in Bu. discriminate.
    + destruct (second_length c <=? length res); [|exact Logic.I]. rewrite kget_put by assumption. rewrite (proj2 (beqb_eq t t) eq_refl). reflexivity.
  - intros u k R. specialize (v_lists0 u k R). unfold list_state in *. cbn [tell all began shown i_lv lv2 lv3]. rewrite list_at_put by assumption. destruct v_lists0 as [A B]. split; [exact A|].
    destruct (beqb u t) eqn:Bu; [|exact B]. apply beqb_eq in Bu. subst u. rewrite (slice_first (shown h t) (began h)) by auto. rewrite holds_app. unfold res.
    rewrite entry_mrg by (try assumption; apply filter_asc; auto). rewrite Eo by (apply v_range0; exact R).
    fold (ws t). destruct (lastop (ws t) t k) as [d|]; [reflexivity|]. rewrite entry_filter_key by (intros m _ <-; apply inside_in; apply v_range0; exact R). exact B.
Qed.

Lemma inv_to3 h low s rest t l lv' c st f : inv h low s -> m_pass (i_mem s) = Some (Pass rest (Some (t, l))) ->
  to3 (m_range (i_mem s)) t l (i_lv s) = Some lv' ->
  inv (tell h (To3 t)) (sink h low (To3 t)) (Index lv' (i_range s) (Mem (m_range (i_mem s)) c st (Some (Pass rest None)) f)).
Proof.
  intros [] Em. rewrite Em in v_pass0. destruct v_pass0 as [St G]. unfold to3. set (rg := m_range (i_mem s)) in *.
  assert (Lt : list_at t (lv2 (i_lv s)) = l) by (unfold list_at; rewrite G; reflexivity). assert (Al : ascending l) by (rewrite <- Lt; auto).
  destruct (merge22_ok rg l (list_at t (lv3 (i_lv s))) true Al (v_asc5 t)) as (a&b&E0). rewrite E0. cbv iota beta.
  set (res := keep true (mrg (filter (inside rg) l) (filter (inside rg) (list_at t (lv3 (i_lv s)))))) in *.
  assert (Am : ascending (mrg (filter (inside rg) l) (filter (inside rg) (list_at t (lv3 (i_lv s)))))) by (apply mrg_asc; apply filter_asc; auto).
  assert (Ar : ascending res) by (apply filter_asc; exact Am).
  intros E. assert (E1 : lv' = Levels (lv1 (i_lv s)) (kdel t (lv2 (i_lv s))) (match res with [] => kdel t (lv3 (i_lv s)) | _ => kput t res (lv3 (i_lv s)) end)) by congruence. subst lv'. clear E.
  constructor; cbn [tell sink all began shown i_lv i_range i_mem m_range m_pass lv1 lv2 lv3]; try assumption.
  - intros u. destruct (beqb u t); [lia|auto].
  - apply kfilter_sorted. assumption.
  - apply store_sorted. assumption.
  - intros u. rewrite list_at_del by assumption. destruct (beqb u t); [constructor|auto].
  - intros u. rewrite list_at_store by assumption. destruct (beqb u t); [exact Ar|auto].
  - split; [exact St|exact Logic.I].
  - intros u k R. specialize (v_lists0 u k R). unfold list_state in *. cbn [tell sink all began shown i_lv lv2 lv3]. rewrite list_at_del, list_at_store by assumption.
    destruct (beqb u t) eqn:Bu; [|exact v_lists0]. apply beqb_eq in Bu. subst u. destruct v_lists0 as [A B]. rewrite Lt in B. split; [|reflexivity].
    rewrite B, A. unfold res. rewrite entry_keep by exact Am. rewrite entry_mrg by (apply filter_asc; auto).
    rewrite !entry_filter_key by (intros m _ <-; apply inside_in; apply v_range0; exact R).
    destruct (entry l k) as [[]|]; [reflexivity|reflexivity|]. destruct (entry (list_at t (lv3 (i_lv s))) k) as [[]|]; reflexivity.
Qed.
