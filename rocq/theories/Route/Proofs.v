From Verif.Common Require Import Bytes KV.
From Verif.Route Require Import Model Spec.
From Coq Require Import List ZArith Lia Bool Sorted.
Import ListNotations.
Local Open Scope Z_scope.

(* ---- key order ---- *)
Lemma below_irrefl a : ~ below a a.
Proof. unfold below. rewrite bcompare_refl. discriminate. Qed.
Lemma below_trans a b c : below a b -> below b c -> below a c.
Proof. apply bcompare_lt_trans. Qed.
Lemma upto_refl a : upto a a. Proof. left; auto. Qed.
Lemma upto_trans a b c : upto a b -> upto b c -> upto a c.
Proof. intros [->|A] [->|B]; unfold upto; auto. right. eapply below_trans; eauto. Qed.
Lemma upto_below a b c : upto a b -> below b c -> below a c.
Proof. intros [->|A] B; auto. eapply below_trans; eauto. Qed.
Lemma below_upto a b c : below a b -> upto b c -> below a c.
Proof. intros A [<-|B]; auto. eapply below_trans; eauto. Qed.
Lemma not_below_upto a b : ~ below a b <-> upto b a.
Proof.
  unfold upto, below. rewrite (bcompare_antisym a b). destruct (bcompare a b) eqn:E; cbn.
  - apply bcompare_eq in E. subst. split; auto. congruence.
  - split; [congruence|]. intros [->|X]; [rewrite bcompare_refl in E|]; congruence.
  - split; auto; congruence.
Qed.
Lemma upto_dec a b : upto a b \/ below b a.
Proof.
  unfold upto, below. rewrite (bcompare_antisym a b). destruct (bcompare a b) eqn:E; cbn; auto.
  apply bcompare_eq in E. auto.
Qed.
Lemma below_upto_absurd a b : below a b -> upto b a -> False.
Proof. intros A B. apply (below_irrefl a). eapply below_upto; eauto. Qed.
Lemma bleb_upto a b : bleb a b = true <-> upto a b.
Proof.
  unfold bleb, upto, below. destruct (bcompare a b) eqn:E.
  - apply bcompare_eq in E. tauto.
  - tauto.
  - split; [discriminate|]. intros [->|X]; [rewrite bcompare_refl in E|]; discriminate.
Qed.
Lemma bltb_below a b : bltb a b = true <-> below a b.
Proof. unfold bltb, below. destruct (bcompare a b); split; congruence. Qed.
Lemma bltb_false a b : bltb a b = false <-> upto b a.
Proof. rewrite <- not_below_upto, <- bltb_below. destruct (bltb a b); split; congruence. Qed.
Lemma bleb_false a b : bleb a b = false <-> below b a.
Proof.
  destruct (upto_dec a b) as [U|U].
  - pose proof U as U'. apply bleb_upto in U'. rewrite U'. split; [discriminate|].
    intros B. exfalso. eapply below_upto_absurd; eauto.
  - split; auto. intros _. destruct (bleb a b) eqn:E; auto. apply bleb_upto in E. exfalso. eapply below_upto_absurd; eauto.
Qed.
Lemma nil_upto k : upto [] k.
Proof. destruct k; [left|right]; auto. unfold below. reflexivity. Qed.
Lemma nil_below k : k <> [] -> below [] k.
Proof. destruct k; [congruence|]. reflexivity. Qed.
Lemma isnil_true k : isnil k = true <-> k = [].
Proof. destruct k; cbn; split; congruence. Qed.
Lemma isnil_false k : isnil k = false <-> k <> [].
Proof. destruct k; cbn; split; congruence. Qed.
Lemma beqb_refl a : beqb a a = true. Proof. apply beqb_eq; auto. Qed.
Lemma beqb_neq a b : beqb a b = false <-> a <> b.
Proof. rewrite <- beqb_eq. destruct (beqb a b); split; congruence. Qed.

Lemma starts_with_prefix s p : starts_with s p = true <-> prefix_of p s.
Proof.
  unfold prefix_of. revert s. induction p as [|b p IH]; intros s; cbn.
  - destruct s; split; eauto.
  - destruct s as [|c s]; [split; [discriminate|intros [x X]; discriminate]|].
    cbn [starts_with]. rewrite andb_true_iff, IH, Z.eqb_eq. split.
    + intros [-> [x ->]]. exists x. auto.
    + intros [x X]. injection X as -> ->. eauto.
Qed.
Lemma prefix_upto p k : prefix_of p k -> upto p k.
Proof.
  intros [x ->]. induction p as [|b p IH]; cbn; [apply nil_upto|].
  destruct IH as [E|E]; [left; congruence|right]. unfold below in *. cbn. rewrite Z.compare_refl. auto.
Qed.
(* a key between p and a key that begins with p begins with p *)
Lemma between_prefix p k s : prefix_of p k -> upto p s -> upto s k -> prefix_of p s.
Proof.
  intros [x ->]. revert s. induction p as [|b p IH]; intros s L R; [exists s; auto|].
  destruct s as [|c s].
  { destruct L as [L|L]; [discriminate|]. unfold below in L. cbn in L. discriminate. }
  assert (b = c).
  { destruct L as [L|L]; [congruence|]. destruct R as [R|R]; [cbn in R; congruence|]. unfold below in *. cbn in *.
    destruct (Z.compare_spec b c); auto; [|discriminate]. destruct (Z.compare_spec c b); try discriminate; lia. }
  subst c. destruct (IH s) as [y ->].
  - destruct L as [L|L]; [left; congruence|right]. unfold below in *. cbn in L. rewrite Z.compare_refl in L. auto.
  - destruct R as [R|R]; [left; cbn in R; congruence|right]. unfold below in *. cbn in R. rewrite Z.compare_refl in R. auto.
  - exists y. auto.
Qed.
(* a key above p that does not begin with p is above everything that begins with p *)
Lemma above_prefix p k s : below p k -> ~ prefix_of p k -> prefix_of p s -> below s k.
Proof.
  intros B N P. destruct (upto_dec k s) as [U|U]; auto. exfalso. apply N.
  apply (between_prefix p s k); auto. right. auto.
Qed.

(* ---- tilings ---- *)
Lemma before_end_upto k s e : upto k s -> before_end s e -> before_end k e.
Proof. intros U [->|B]; [left|right]; auto. eapply upto_below; eauto. Qed.
Lemma before_end_nonnil k e : before_end k e -> e <> [] -> below k e.
Proof. intros [->|B]; auto; congruence. Qed.

Lemma tile_start s rs e : tile s rs e -> exists r rs', rs = r :: rs' /\ r_start r = s.
Proof. destruct rs as [|r rs]; cbn; [tauto|]. intros [E _]. eauto. Qed.
Lemma tile_ends s rs e : tile s rs e -> before_end s e.
Proof.
  revert s. induction rs as [|r rs IH]; intros s; cbn; [tauto|]. intros (E & B & T).
  destruct rs as [|r' rs]; [subst; auto|]. destruct T as [N T]. apply IH in T.
  eapply before_end_upto; [|exact T]. right. apply before_end_nonnil; auto.
Qed.
Lemma tile_forall_start s rs e : tile s rs e -> Forall (fun r => upto s (r_start r) /\ before_end (r_start r) (r_end r)) rs.
Proof.
  revert s. induction rs as [|r rs IH]; intros s; cbn; [constructor|]. intros (E & B & T).
  constructor; [subst; auto using upto_refl|]. destruct rs as [|r' rs]; [constructor|]. destruct T as [N T].
  eapply Forall_impl; [|apply (IH _ T)]. intros a [U V]. split; auto.
  eapply upto_trans; [|exact U]. right. apply before_end_nonnil; auto.
Qed.
(* later regions start at or after the end of earlier ones *)
Lemma tile_sorted s rs e : tile s rs e ->
  StronglySorted (fun a b => r_end a <> [] /\ upto (r_end a) (r_start b) /\ below (r_start a) (r_start b)) rs.
Proof.
  revert s. induction rs as [|r rs IH]; intros s; cbn; [constructor|]. intros (E & B & T).
  destruct rs as [|r' rs]; [repeat constructor|]. destruct T as [N T]. constructor; [apply (IH _ T)|].
  eapply Forall_impl; [|apply (tile_forall_start _ _ _ T)]. intros a [U V]. repeat split; auto.
  subst s. eapply below_upto; [|exact U]. apply before_end_nonnil; auto.
Qed.
Lemma tile_in_end s rs e r : tile s rs e -> In r rs -> before_end (r_start r) e /\ (r_end r = e \/ (r_end r <> [] /\ before_end (r_end r) e)).
Proof.
  revert s. induction rs as [|a rs IH]; intros s; cbn; [tauto|]. intros (E & B & T) I.
  destruct rs as [|r' rs].
  - destruct I as [->|[]]. subst. auto.
  - destruct T as [N T]. destruct I as [->|I]; [|eapply IH; eauto].
    pose proof (tile_ends _ _ _ T) as X. subst s. split; [|right; auto].
    eapply before_end_upto; [|exact X]. right. apply before_end_nonnil; auto.
Qed.
(* every key of the tiled interval has an owner *)
Lemma tile_owner s rs e k : tile s rs e -> upto s k -> before_end k e -> exists r, In r rs /\ owns r k.
Proof.
  revert s. induction rs as [|r rs IH]; intros s; cbn; [tauto|]. intros (E & B & T) U V.
  destruct rs as [|r' rs].
  - exists r. split; auto. subst. split; auto.
  - destruct T as [N T]. destruct (upto_dec (r_end r) k) as [X|X].
    + destruct (IH _ T X V) as (a & I & O). eauto.
    + exists r. split; auto. subst s. split; auto. right. auto.
Qed.
Lemma sorted_owner_unique rs a b k :
  StronglySorted (fun a b => r_end a <> [] /\ upto (r_end a) (r_start b) /\ below (r_start a) (r_start b)) rs ->
  In a rs -> In b rs -> owns a k -> owns b k -> a = b.
Proof.
  induction 1 as [|r rs S IH F]; intros Ia Ib [La Ra] [Lb Rb]; [destruct Ia|].
  rewrite Forall_forall in F.
  assert (X : forall x y, r_end x <> [] -> upto (r_end x) (r_start y) -> before_end k (r_end x) -> upto (r_start y) k -> False).
  { intros x y N U V W. apply (before_end_nonnil k) in V; auto. eapply below_upto_absurd; [exact V|]. eapply upto_trans; eauto. }
  destruct Ia as [->|Ia], Ib as [->|Ib]; auto.
  - exfalso. destruct (F _ Ib) as (N & U & _). eapply X; eauto.
  - exfalso. destruct (F _ Ia) as (N & U & _). eapply X; eauto.
  - apply IH; auto; split; auto.
Qed.

Lemma StronglySorted_map {A B} (f : A -> B) (R : B -> B -> Prop) (Q : A -> A -> Prop) l :
  (forall a b, Q a b -> R (f a) (f b)) -> StronglySorted Q l -> StronglySorted R (map f l).
Proof.
  intros M. induction 1 as [|a l S IH F]; cbn; constructor; auto.
  rewrite Forall_forall in *. intros x I. apply in_map_iff in I. destruct I as (y & <- & I). auto.
Qed.
Definition ent (r : region) : key * Z := (r_start r, r_id r).
Lemma tile_ksorted s rs e : tile s rs e -> ksorted (map ent rs).
Proof.
  intros T. apply tile_sorted in T. unfold ksorted. eapply StronglySorted_map; [|exact T].
  intros a b (_ & _ & B). exact B.
Qed.

(* ---- iterators ---- *)
Lemma skip_while_spec p before rest :
  exists A B, rest = A ++ B /\ skip_while p before rest = (rev A ++ before, B) /\
    Forall (fun e => p (fst e) = true) A /\ (forall e B', B = e :: B' -> p (fst e) = false).
Proof.
  revert before. induction rest as [|[k v] rest IH]; intros before; cbn.
  - exists [], []. repeat split; auto. discriminate.
  - destruct (p k) eqn:E.
    + destruct (IH ((k, v) :: before)) as (A & B & -> & R & FA & FB). exists ((k, v) :: A), B.
      rewrite R. cbn. rewrite <- app_assoc. repeat split; auto.
    + exists [], ((k, v) :: rest). repeat split; auto. intros e B' X. injection X as <- <-. auto.
Qed.
Lemma map_split {A B} (f : A -> B) l X Y : map f l = X ++ Y -> exists l1 l2, l = l1 ++ l2 /\ map f l1 = X /\ map f l2 = Y.
Proof.
  revert l. induction X as [|x X IH]; intros l E; cbn in E.
  - exists [], l. auto.
  - destruct l as [|a l]; [discriminate|]. cbn in E. injection E as E1 E2.
    destruct (IH _ E2) as (l1 & l2 & -> & <- & <-). exists (a :: l1), l2. cbn. rewrite E1. auto.
Qed.

Lemma sorted_app_all {A} (R : A -> A -> Prop) l1 l2 : StronglySorted R (l1 ++ l2) ->
  StronglySorted R l1 /\ StronglySorted R l2 /\ forall a b, In a l1 -> In b l2 -> R a b.
Proof.
  induction l1 as [|x l1 IH]; cbn; intros S.
  - repeat split; auto using SSorted_nil. intros a b [].
  - inversion S; subst. destruct (IH H1) as (S1 & S2 & S3). rewrite Forall_forall in H2.
    repeat split; auto.
    + constructor; auto. rewrite Forall_forall. intros a I. apply H2. apply in_or_app; auto.
    + intros a b [<-|I] J; auto. apply H2. apply in_or_app; auto.
Qed.

(* ---- C31: lookups ---- *)
Section Lookup.
Variables (t : table) (rs : list region).
Hypothesis G : good t rs.

Lemma good_tile : tile [] rs []. Proof. apply G. Qed.
Lemma good_keys : t_keys t = map ent rs. Proof. apply G. Qed.
Lemma good_sorted : StronglySorted (fun a b => r_end a <> [] /\ upto (r_end a) (r_start b) /\ below (r_start a) (r_start b)) rs.
Proof. eapply tile_sorted. apply good_tile. Qed.

Lemma route_record_ok k : exists r, route_record t k = Some (r_id r) /\ In r rs /\ owns r k.
Proof.
  unfold route_record, upper_bound. rewrite good_keys.
  destruct (skip_while_spec (fun x => bleb x k) [] (map ent rs)) as (A & B & E & S & FA & FB).
  rewrite S, app_nil_r. apply map_split in E. destruct E as (l1 & l2 & E & <- & <-).
  pose proof good_tile as T. pose proof good_sorted as SO.
  destruct (tile_owner [] rs [] k T (nil_upto k) (or_introl eq_refl)) as (r & I & O).
  (* the owner is the last region that starts at or before k *)
  assert (I1 : In r l1).
  { rewrite E in I. apply in_app_or in I. destruct I as [I|I]; auto. exfalso.
    destruct l2 as [|b l2]; [destruct I|]. specialize (FB _ _ eq_refl). cbn in FB. apply bleb_false in FB.
    rewrite E in SO. apply sorted_app_all in SO. destruct SO as (_ & SO & _). inversion SO; subst.
    rewrite Forall_forall in H2. destruct O as [O _].
    destruct I as [->|I]; [eapply below_upto_absurd; eauto|]. apply H2 in I. destruct I as (_ & _ & I).
    eapply below_upto_absurd; [exact FB|]. eapply upto_trans; [right; exact I|exact O]. }
  destruct l1 as [|x l1] using rev_ind; [destruct I1|]. clear IHl1.
  rewrite map_app, rev_app_distr. cbn. exists x. split; auto. split; [rewrite E; apply in_or_app; left; apply in_or_app; right; left; auto|].
  assert (X : upto (r_start x) k).
  { rewrite map_app in FA. apply Forall_app in FA. destruct FA as [_ FA]. inversion FA; subst. cbn in H1. apply bleb_upto in H1. auto. }
  apply in_app_or in I1. destruct I1 as [I1|[<-|[]]]; auto.
  exfalso. rewrite E in SO. apply sorted_app_all in SO. destruct SO as (SO & _ & _). apply sorted_app_all in SO.
  destruct SO as (_ & _ & SO). destruct (SO r x I1 (or_introl eq_refl)) as (N & U & _).
  destruct O as [_ O]. apply before_end_nonnil in O; auto. eapply below_upto_absurd; [exact O|]. eapply upto_trans; eauto.
Qed.

Lemma take_regions_in stop ropen l1 r l2 :
  Forall (fun a => isnil stop || bleb (r_start a) stop || (negb ropen && starts_with (r_start a) stop) = true) (l1 ++ [r]) ->
  In (r_id r) (take_regions stop ropen (map ent (l1 ++ r :: l2))).
Proof.
  induction l1 as [|a l1 IH]; cbn; intros F; inversion F; subst; rewrite H1; [left; auto|]. right. apply IH. auto.
Qed.

(* the list the collecting loop of get_region_by_key runs over *)
Lemma from_spec p before rest :
  forall A B, map ent rs = A ++ B -> before = rev A -> rest = B ->
  Forall (fun e => p (fst e) = true) A ->
  forall r, In r rs -> (forall e, In e A -> p (fst e) = true -> upto (fst e) (r_start r)) ->
  exists l0 l1 l2, rs = l0 ++ l1 ++ r :: l2 /\
    match before with [] => rest | e :: _ => e :: rest end = map ent (l1 ++ r :: l2).
Proof.
  intros A B E -> -> FA r I U. apply map_split in E. destruct E as (m1 & m2 & E & <- & <-).
  destruct m1 as [|x m1] using rev_ind.
  - cbn in E. subst m2. cbn. apply in_split in I. destruct I as (l1 & l2 & ->). exists [], l1, l2. auto.
  - clear IHm1. rewrite map_app, rev_app_distr. cbn [map rev app].
    change (ent x :: map ent m2) with (map ent (x :: m2)).
    assert (J : In r (x :: m2)).
    { rewrite E in I. rewrite <- app_assoc in I. cbn [app] in I. apply in_app_or in I. destruct I as [I|I]; auto. exfalso.
      pose proof good_sorted as SO. rewrite E in SO. apply sorted_app_all in SO. destruct SO as (SO & _). apply sorted_app_all in SO.
      destruct SO as (_ & _ & SO). destruct (SO r x I (or_introl eq_refl)) as (_ & _ & L).
      assert (Ix : In (ent x) (map ent (m1 ++ [x]))) by (apply in_map, in_or_app; right; left; auto).
      rewrite Forall_forall in FA. specialize (U _ Ix (FA _ Ix)). cbn in U. eapply below_upto_absurd; eauto. }
    apply in_split in J. destruct J as (l1 & l2 & J). exists m1, l1, l2. rewrite <- J. split; auto.
    rewrite E, <- app_assoc. auto.
Qed.

Lemma route_range_ok is_eq g k r :
  (is_eq = true -> g_lopen g = false) -> wanted is_eq g k -> In r rs -> owns r k ->
  In (r_id r) (route_range t is_eq g).
Proof.
  intros HE W I [O1 O2]. unfold route_range. cbv zeta.
  set (start := g_left g). set (lopen := if isnil start then false else g_lopen g).
  set (stop := if is_eq then start else g_right g).
  set (ropen := if is_eq then lopen else if isnil (g_right g) then false else g_ropen g).
  set (sentinel := if negb (g_full g) && lopen then start ++ [255; 255] else start).
  assert (WL : if lopen then below start k /\ ~ prefix_of start k else upto start k).
  { unfold lopen, wanted in *. fold start in W. destruct is_eq.
    - rewrite HE by auto. destruct (isnil start); apply prefix_upto; auto.
    - destruct W as [[E|L] _].
      + fold start in E. rewrite E. cbn. apply nil_upto.
      + fold start in L. destruct (isnil start) eqn:N; auto. apply isnil_true in N. rewrite N. apply nil_upto. }
  assert (WS : forall s, upto s sentinel -> upto s k).
  { unfold sentinel. destruct lopen.
    - rewrite andb_true_r. destruct WL as [B N]. destruct (negb (g_full g)).
      + intros s U. right. eapply upto_below; [exact U|]. eapply above_prefix; eauto. eexists; eauto.
      + intros s U. right. eapply upto_below; eauto.
    - rewrite andb_false_r. intros s U. eapply upto_trans; eauto. }
  assert (WR : stop = [] \/ (if ropen then below k stop else upto k stop \/ prefix_of stop k)).
  { unfold stop, ropen, wanted in *. destruct is_eq.
    - right. unfold lopen. rewrite HE by auto. destruct (isnil start); auto.
    - destruct W as [_ [E|R]]; auto. destruct (isnil (g_right g)) eqn:N; [left; apply isnil_true; auto|]. auto. }
  assert (OWN : forall s, upto s k -> In s (map r_start rs) -> upto s (r_start r)).
  { intros s U J. destruct (upto_dec s (r_start r)) as [X|X]; auto. exfalso.
    apply in_map_iff in J. destruct J as (a & <- & J).
    pose proof good_sorted as SO. apply in_split in I. destruct I as (l1 & l2 & E). rewrite E in *.
    apply sorted_app_all in SO. destruct SO as (SA & SO & SX). inversion SO; subst.
    rewrite Forall_forall in H2. apply in_app_or in J. destruct J as [J|[<-|J]].
    - destruct (SX a r J (or_introl eq_refl)) as (_ & _ & L). eapply (below_irrefl (r_start a)). eapply below_trans; eauto.
    - eapply below_irrefl; eauto.
    - destruct (H2 _ J) as (N & L & _). apply before_end_nonnil in O2; auto.
      eapply below_upto_absurd; [exact O2|]. eapply upto_trans; eauto. }
  unfold upper_bound. rewrite good_keys.
  destruct (skip_while_spec (fun x => bleb x sentinel) [] (map ent rs)) as (A & B & E & S & FA & FB).
  rewrite S, app_nil_r.
  assert (INA : forall X Y, map ent rs = X ++ Y -> forall e, In e X -> In (fst e) (map r_start rs)).
  { intros X Y EX e J. assert (J' : In e (map ent rs)) by (rewrite EX; apply in_or_app; auto).
    apply in_map_iff in J'. destruct J' as (a & <- & J'). cbn. apply in_map. auto. }
  match goal with |- In _ (let '(_, _) := ?x in _) => set (pr := x) end.
  assert (FIN : exists l0 l1 l2, rs = l0 ++ l1 ++ r :: l2 /\
     (let '(before, rest) := pr in
      match before with [] => rest | e :: _ => e :: rest end) = map ent (l1 ++ r :: l2)).
  { subst pr. destruct lopen.
    - destruct (skip_while_spec (fun k => starts_with k start) (rev A) B) as (A2 & B2 & E2 & S2 & FA2 & FB2).
      rewrite S2.
      apply (from_spec (fun x => bleb x sentinel || starts_with x start) (rev A2 ++ rev A) B2 (A ++ A2) B2); auto.
      + rewrite E, E2, app_assoc. auto.
      + rewrite rev_app_distr. auto.
      + apply Forall_app; split; [eapply Forall_impl; [|exact FA]|eapply Forall_impl; [|exact FA2]]; cbn; intros a ->; auto using orb_true_r.
      + intros e J P. apply OWN; [|eapply INA; [|exact J]; rewrite E, E2, app_assoc; reflexivity].
        apply orb_true_iff in P. destruct P as [P|P].
        * apply bleb_upto in P. apply WS. auto.
        * apply starts_with_prefix in P. right. destruct WL as [L N]. eapply above_prefix; eauto.
    - apply (from_spec (fun x => bleb x sentinel) (rev A) B A B); auto.
      intros e J P. apply OWN; [|eapply INA; eauto]. apply bleb_upto in P. apply WS. auto. }
  destruct FIN as (l0 & l1 & l2 & ER & FIN).
  clearbody pr. destruct pr as [before rest].
  rewrite FIN. apply take_regions_in. rewrite Forall_forall. intros a J.
  assert (UA : upto (r_start a) k).
  { apply in_app_or in J. destruct J as [J|[<-|[]]]; auto.
    pose proof good_sorted as SO. rewrite ER in SO. apply sorted_app_all in SO. destruct SO as (_ & SO & _).
    apply sorted_app_all in SO. destruct SO as (_ & _ & SO). destruct (SO a r J (or_introl eq_refl)) as (_ & _ & L).
    eapply upto_trans; [right; exact L|auto]. }
  destruct WR as [Z|WR]; [rewrite Z; reflexivity|].
  apply orb_true_iff. destruct (bleb (r_start a) stop) eqn:BL; [left; apply orb_true_r|]. right.
  apply bleb_false in BL. destruct ropen; cbn.
  - exfalso. eapply (below_irrefl k). eapply below_trans; [exact WR|]. eapply below_upto; eauto.
  - apply starts_with_prefix. destruct WR as [WR|WR].
    + exfalso. eapply below_upto_absurd; [exact BL|]. eapply upto_trans; eauto.
    + eapply between_prefix; eauto. right. auto.
Qed.

(* what a routed region has in common with the range *)
Lemma route_range_tight is_eq g i :
  (is_eq = true -> g_lopen g = false) ->
  is_eq = true \/ g_right g = [] \/ upto (g_left g) (g_right g) \/ prefix_of (g_right g) (g_left g) ->
  In i (route_range t is_eq g) ->
  exists r k, In r rs /\ r_id r = i /\ owns r k /\ upto (g_left g) k /\
    (let stop := if is_eq then g_left g else g_right g in stop = [] \/ upto k stop \/ prefix_of stop k).
Proof.
  intros HE HR. unfold route_range. cbv zeta.
  set (start := g_left g) in *. set (lopen := if isnil start then false else g_lopen g).
  set (stop := if is_eq then start else g_right g).
  set (ropen := if is_eq then lopen else if isnil (g_right g) then false else g_ropen g).
  set (sentinel := if negb (g_full g) && lopen then start ++ [255; 255] else start).
  assert (SE : upto start sentinel).
  { unfold sentinel. destruct (negb (g_full g) && lopen); [apply prefix_upto; eexists; eauto|apply upto_refl]. }
  unfold upper_bound. rewrite good_keys.
  destruct (skip_while_spec (fun x => bleb x sentinel) [] (map ent rs)) as (A & B & E & S & FA & FB).
  rewrite S, app_nil_r.
  match goal with |- In _ (let '(_, _) := ?x in _) -> _ => set (pr := x) end.
  assert (FIN : exists l0 l1, rs = l0 ++ l1 /\
     (let '(before, rest) := pr in
      match before with [] => rest | e :: _ => e :: rest end) = map ent l1 /\
     (forall a l1', l1 = a :: l1' -> Forall (fun b => below start (r_start b)) l1')).
  { subst pr. assert (GEN : forall X Y, map ent rs = X ++ Y -> Forall (fun e => below start (fst e)) Y ->
       exists l0 l1, rs = l0 ++ l1 /\ match rev X with [] => Y | e :: _ => e :: Y end = map ent l1 /\
         (forall a l1', l1 = a :: l1' -> Forall (fun b => below start (r_start b)) l1')).
    { intros X Y EX FY. apply map_split in EX. destruct EX as (m1 & m2 & EX & <- & <-).
      assert (FY' : Forall (fun b => below start (r_start b)) m2).
      { rewrite Forall_forall in *. intros b J. apply (FY (ent b)). apply in_map. auto. }
      destruct m1 as [|x m1] using rev_ind.
      - exists [], m2. cbn. repeat split; auto. intros a l1' ->. inversion FY'; auto.
      - clear IHm1. exists m1, (x :: m2). rewrite map_app, rev_app_distr. cbn. rewrite EX, <- app_assoc. repeat split; auto.
        intros a l1' EQ. injection EQ as <- <-. auto. }
    assert (FS : Forall (fun e => below start (fst e)) B).
    { destruct B as [|b B]; [constructor|]. specialize (FB _ _ eq_refl). cbn in FB. apply bleb_false in FB.
      assert (SO : ksorted (A ++ b :: B)) by (rewrite <- E; eapply tile_ksorted; apply good_tile).
      apply sorted_app_all in SO. destruct SO as (_ & SO & _). inversion SO; subst.
      assert (UB : below start (fst b)) by (eapply upto_below; eauto).
      constructor; auto. eapply Forall_impl; [|exact H2]. intros e L. eapply below_trans; [exact UB|]. exact L. }
    destruct lopen; [|apply GEN; auto].
    destruct (skip_while_spec (fun k => starts_with k start) (rev A) B) as (A2 & B2 & E2 & S2 & FA2 & FB2).
    rewrite S2, <- rev_app_distr. apply GEN; [rewrite E, E2, app_assoc; auto|].
    rewrite E2 in FS. apply Forall_app in FS. tauto. }
  destruct FIN as (l0 & l1 & ER & FIN & F1).
  clearbody pr. destruct pr as [before rest].
  rewrite FIN. intros I.
  assert (HR' : stop = [] \/ upto start stop \/ prefix_of stop start).
  { unfold stop. destruct is_eq; [right; left; apply upto_refl|]. destruct HR as [HR|[HR|[HR|HR]]]; auto; discriminate. }
  assert (TK : forall l, In i (take_regions stop ropen (map ent l)) -> exists m a m', l = m ++ a :: m' /\ r_id a = i /\
             (stop = [] \/ upto (r_start a) stop \/ prefix_of stop (r_start a))).
  { clear. induction l as [|a l IH]; cbn; [tauto|].
    destruct (isnil stop || bleb (r_start a) stop || negb ropen && starts_with (r_start a) stop) eqn:C; [|intros []].
    intros [<-|I].
    - exists [], a, l. repeat split; auto. apply orb_true_iff in C. destruct C as [C|C].
      + apply orb_true_iff in C. destruct C as [C|C]; [left; apply isnil_true; auto|right; left; apply bleb_upto; auto].
      + right; right. apply andb_true_iff in C. apply starts_with_prefix. tauto.
    - destruct (IH I) as (m & b & m' & -> & H1 & H2). exists (a :: m), b, m'. auto. }
  destruct (TK _ I) as (m & a & m' & -> & Hi & Hs).
  assert (Ia : In a rs) by (rewrite ER; apply in_or_app; right; apply in_or_app; right; left; auto).
  pose proof (tile_forall_start _ _ _ good_tile) as TF. rewrite Forall_forall in TF. destruct (TF _ Ia) as [_ TA].
  destruct (upto_dec start (r_start a)) as [U|U].
  - exists a, (r_start a). repeat split; auto using upto_refl.
  - (* only the first region of the list starts before the range *)
    destruct m as [|x m].
    2:{ exfalso. specialize (F1 _ _ eq_refl). apply Forall_app in F1. destruct F1 as [_ F1]. inversion F1; subst.
        eapply (below_irrefl start). eapply below_trans; eauto. }
    specialize (F1 _ _ eq_refl). exists a, start. repeat split; auto using upto_refl; [right; auto|].
    destruct m' as [|b m'].
    + pose proof good_tile as T. rewrite ER in T. left.
      assert (LAST : forall l s e, tile s (l ++ [a]) e -> r_end a = e).
      { clear. induction l as [|x l IH]; intros s e; cbn [app tile].
        - tauto.
        - intros (_ & _ & T). destruct l as [|y l]; cbn [app] in *; [cbn in T; tauto|]. destruct T as [_ T]. eapply IH. exact T. }
      eapply LAST. exact T.
    + apply Forall_inv in F1. pose proof good_tile as T.
      assert (NEXT : forall l s e, tile s (l ++ a :: b :: m') e -> r_end a <> [] /\ r_end a = r_start b).
      { clear. induction l as [|x l IH]; intros s e; cbn [app].
        - cbn. intros (_ & _ & N & E & _). split; auto.
        - intros T. cbn [tile] in T. destruct T as (_ & _ & T). destruct l as [|y l]; cbn [app] in *; destruct T as [_ T]; eapply (IH _ _ T). }
      rewrite ER in T. destruct (NEXT _ _ _ T) as [N EQ]. right. rewrite EQ. auto.
Qed.

(* the list a lookup starts from: its first region holds the bound, the others start after it *)
Lemma from_tight start :
  exists l0 a l1, rs = l0 ++ a :: l1 /\
    (let '(before, rest) := upper_bound start (t_keys t) in
     match before with [] => rest | e :: _ => e :: rest end) = map ent (a :: l1) /\
    owns a start /\ Forall (fun b => below start (r_start b)) l1.
Proof.
  unfold upper_bound. rewrite good_keys.
  destruct (skip_while_spec (fun x => bleb x start) [] (map ent rs)) as (A & B & E & S & FA & FB).
  rewrite S, app_nil_r. apply map_split in E. destruct E as (m1 & m2 & E & <- & <-).
  assert (FY : Forall (fun b => below start (r_start b)) m2).
  { destruct m2 as [|b m2]; [constructor|]. specialize (FB _ _ eq_refl). cbn in FB. apply bleb_false in FB.
    constructor; auto. pose proof good_sorted as SO. rewrite E in SO. apply sorted_app_all in SO. destruct SO as (_ & SO & _).
    inversion SO; subst. eapply Forall_impl; [|exact H2]. cbn. intros c (_ & _ & L). eapply below_trans; eauto. }
  pose proof good_tile as T.
  destruct m1 as [|x m1] using rev_ind.
  - exfalso. cbn in E. subst m2. apply tile_start in T. destruct T as (r & l & -> & R).
    apply Forall_inv in FY. rewrite R in FY. destruct start; discriminate FY.
  - clear IHm1. exists m1, x, m2. rewrite map_app, rev_app_distr. cbn [map rev app]. rewrite E, <- app_assoc.
    split; [reflexivity|]. split; [reflexivity|]. split; [|exact FY]. split.
    { rewrite map_app in FA. apply Forall_app in FA. destruct FA as [_ FA]. apply Forall_inv in FA. cbn in FA. apply bleb_upto in FA. auto. }
    rewrite E in T. rewrite <- app_assoc in T. clear - T FY.
    assert (X : forall l s, tile s (l ++ [x] ++ m2) [] -> r_end x = [] \/ exists b m', m2 = b :: m' /\ r_end x = r_start b).
    { clear. induction l as [|y l IH]; intros s; cbn [app tile].
      - intros (_ & _ & T). destruct m2 as [|b m']; auto. right. exists b, m'. cbn in T. destruct T as (_ & T & _). auto.
      - intros (_ & _ & T). destruct l as [|z l]; cbn [app] in *; destruct T as [_ T]; eapply IH; exact T. }
    destruct (X _ _ T) as [N|(b & m' & -> & EQ)]; [left; auto|right]. rewrite EQ. apply Forall_inv in FY. auto.
Qed.

Lemma route_region_ok start stop i :
  before_end start stop ->
  (In i (route_region t start stop) <->
   exists r k, In r rs /\ r_id r = i /\ owns r k /\ upto start k /\ before_end k stop).
Proof.
  intros BE. unfold route_region.
  destruct (from_tight start) as (l0 & a & l1 & ER & FIN & [O1 O2] & F1).
  destruct (upper_bound start (t_keys t)) as [before rest]. rewrite FIN. clear FIN before rest.
  pose proof good_sorted as SO. pose proof good_tile as T.
  pose proof (tile_forall_start _ _ _ T) as TF. rewrite Forall_forall in TF.
  split.
  - intros I.
    assert (TK : forall l, In i (take_until stop (map ent l)) -> exists m a m', l = m ++ a :: m' /\ r_id a = i /\
             (stop = [] \/ below (r_start a) stop)).
    { clear. induction l as [|a l IH]; cbn; [tauto|].
      destruct (isnil stop || bltb (r_start a) stop) eqn:C; [|intros []]. intros [<-|I].
      - exists [], a, l. repeat split; auto. apply orb_true_iff in C. destruct C as [C|C]; [left; apply isnil_true; auto|right; apply bltb_below; auto].
      - destruct (IH I) as (m & b & m' & -> & H1 & H2). exists (a :: m), b, m'. auto. }
    destruct (TK _ I) as (m & b & m' & EM & Hi & Hs).
    destruct m as [|x m]; cbn in EM; injection EM as <- EM.
    + exists a, start. repeat split; auto using upto_refl. rewrite ER. apply in_or_app. right. left. auto.
    + assert (Ib : In b rs) by (rewrite ER, EM; apply in_or_app; right; right; apply in_or_app; right; left; auto).
      rewrite EM in F1. apply Forall_app in F1. destruct F1 as [_ F1]. apply Forall_inv in F1.
      exists b, (r_start b). destruct (TF _ Ib) as [_ TA]. repeat split; auto using upto_refl. right; auto.
  - intros (r & k & I & <- & [P1 P2] & U & B).
    assert (J : In r (a :: l1)).
    { rewrite ER in I. apply in_app_or in I. destruct I as [I|I]; auto. exfalso.
      rewrite ER in SO. apply sorted_app_all in SO. destruct SO as (_ & _ & SO).
      destruct (SO r a I (or_introl eq_refl)) as (N & E & _). apply before_end_nonnil in P2; auto.
      eapply below_upto_absurd; [exact P2|]. eapply upto_trans; [exact E|]. eapply upto_trans; eauto. }
    apply in_split in J. destruct J as (m & m' & EM). rewrite EM in *.
    rewrite ER in SO. apply sorted_app_all in SO. destruct SO as (_ & SO & _). apply sorted_app_all in SO. destruct SO as (_ & _ & SO).
    assert (F : Forall (fun b => isnil stop || bltb (r_start b) stop = true) (m ++ [r])).
    { rewrite Forall_forall. intros b J. destruct B as [->|B]; [reflexivity|]. apply orb_true_iff. right. apply bltb_below.
      eapply upto_below; [|exact B]. apply in_app_or in J. destruct J as [J|[<-|[]]]; auto.
      destruct (SO b r J (or_introl eq_refl)) as (_ & _ & L). eapply upto_trans; [right; exact L|auto]. }
    clear - F. induction m as [|b m IH]; cbn in *; inversion F; subst; rewrite H1; [left; auto|right; auto].
Qed.

(* the consistency check of the frontend accepts a complete table *)
Lemma check_consecutive_complete : check_consecutive t = true.
Proof.
  unfold check_consecutive. rewrite good_keys. destruct G as [_ [_ F]].
  pose proof good_tile as T. revert F T. generalize ([] : key) at 1 3. clear G.
  induction rs as [|r l IH]; intros s F T; [destruct T|]. inversion F; subst. cbn [map ent consecutive_from].
  cbn [tile] in T. destruct T as (E & _ & T). unfold ent at 1. rewrite H1. rewrite E, beqb_refl. cbn [andb].
  destruct l as [|r' l]; [rewrite T; reflexivity|]. destruct T as [_ T]. apply IH; auto.
Qed.
End Lookup.

(* ... and only complete ones, if every region is filed under its own start key *)
Lemma check_consecutive_sound t :
  ksorted (t_keys t) -> t_keys t <> [] ->
  (forall k id, In (k, id) (t_keys t) -> exists r, t_infos t id = Some r /\ r_id r = id /\ r_start r = k) ->
  check_consecutive t = true ->
  exists rs, tile [] rs [] /\ lists t rs.
Proof.
  unfold check_consecutive. intros S N F C.
  assert (X : forall m prev, ksorted m -> m <> [] ->
    (forall k id, In (k, id) m -> (prev = [] \/ upto prev k) /\ exists r, t_infos t id = Some r /\ r_id r = id /\ r_start r = k) ->
    consecutive_from t prev m = true ->
    exists rs, tile prev rs [] /\ m = map ent rs /\ Forall (fun r => t_infos t (r_id r) = Some r) rs).
  { induction m as [|[k id] m IH]; intros prev S' N' F' C'; [congruence|].
    cbn [consecutive_from] in C'. destruct (F' k id (or_introl eq_refl)) as (_ & r & R1 & R2 & R3). rewrite R1 in C'.
    apply andb_true_iff in C'. destruct C' as [C1 C2]. apply beqb_eq in C1.
    inversion S'; subst. destruct m as [|[k' id'] m].
    - cbn in C2. apply isnil_true in C2. exists [r]. cbn. repeat split; auto. left; auto.
    - assert (L : below (r_start r) k') by (apply Forall_inv in H2; exact H2).
      pose proof C2 as C3. cbn [consecutive_from] in C3. destruct (F' k' id' (or_intror (or_introl eq_refl))) as (_ & r' & R1' & R2' & R3').
      rewrite R1' in C3. apply andb_true_iff in C3. destruct C3 as [C3 _]. apply beqb_eq in C3.
      assert (E : r_end r = k') by congruence.
      assert (NE : r_end r <> []) by (rewrite E; intros ->; destruct (r_start r); discriminate L).
      destruct (IH (r_end r)) as (l & T & M & FF); auto; try congruence.
      { intros k2 id2 J. split.
        - right. rewrite E. destruct J as [J|J]; [injection J as <- <-; apply upto_refl|]. right.
          inversion H1; subst. rewrite Forall_forall in H4. apply (H4 _ J).
        - apply (F' k2 id2). right. auto. }
      exists (r :: l). cbn [tile]. split; [|split].
      + split; auto. split; [right; rewrite E; auto|]. destruct l; [destruct T|auto].
      + cbn. unfold ent at 1. rewrite M. auto.
      + constructor; auto. }
  destruct (X (t_keys t) []) as (rs & T & M & FF); auto.
  exists rs. split; auto. split; auto.
Qed.

(* ---- several ranges ---- *)
Definition asked (m : list (Z * list nat)) (id : Z) (n : nat) : Prop := exists l, In (id, l) m /\ In n l.
Lemma add_idx_asked id i m j n : asked (add_idx id i m) j n <-> (j = id /\ n = i) \/ asked m j n.
Proof.
  unfold asked. induction m as [|[x l] m IH]; cbn.
  - split.
    + intros (l & [E|[]] & I). injection E as <- <-. destruct I as [<-|[]]. auto.
    + intros [[-> ->]|(l & [] & _)]. exists [i]. cbn. auto.
  - destruct (Z.eqb_spec id x) as [->|NE]; cbn.
    + split.
      * intros (l' & [E|I] & J).
        -- injection E as <- <-. apply in_app_or in J. destruct J as [J|[<-|[]]]; eauto.
        -- eauto.
      * intros [[-> ->]|(l' & [E|I] & J)].
        -- exists (l ++ [i]). split; auto. apply in_or_app. right. left. auto.
        -- injection E as <- <-. exists (l ++ [i]). split; auto. apply in_or_app. auto.
        -- eauto.
    + split.
      * intros (l' & [E|I] & J); [right; eauto|]. destruct (proj1 IH (ex_intro _ l' (conj I J))) as [X|(l2 & I2 & J2)]; eauto.
      * intros [X|(l' & [E|I] & J)].
        -- destruct (proj2 IH (or_introl X)) as (l2 & I2 & J2). eauto.
        -- eauto.
        -- destruct (proj2 IH (or_intror (ex_intro _ l' (conj I J)))) as (l2 & I2 & J2). eauto.
Qed.
Lemma add_idx_nodup id i m : NoDup (map fst m) -> NoDup (map fst (add_idx id i m)).
Proof.
  induction m as [|[x l] m IH]; cbn; intros N; [repeat constructor; auto|].
  destruct (Z.eqb_spec id x) as [->|NE]; cbn; auto. inversion N; subst. constructor; auto.
  intros I. apply H1. clear - I NE. induction m as [|[y l'] m IH]; cbn in *.
  - destruct I as [I|[]]. congruence.
  - destruct (Z.eqb_spec id y) as [->|NE']; cbn in *; auto. destruct I as [I|I]; auto.
Qed.
Lemma fold_add_asked ids i m j n :
  asked (fold_left (fun m id => add_idx id i m) ids m) j n <-> (In j ids /\ n = i) \/ asked m j n.
Proof.
  revert m. induction ids as [|x ids IH]; intros m; cbn; [tauto|]. rewrite IH, add_idx_asked.
  split; intros H; repeat match goal with H : _ \/ _ |- _ => destruct H | H : _ /\ _ |- _ => destruct H end; subst; auto.
Qed.
Lemma fold_add_nodup ids i m : NoDup (map fst m) -> NoDup (map fst (fold_left (fun m id => add_idx id i m) ids m)).
Proof. revert m. induction ids as [|x ids IH]; intros m N; cbn; auto. apply IH, add_idx_nodup, N. Qed.
Lemma route_ranges_from_asked t is_eq gs i m j n :
  asked (route_ranges_from t is_eq i gs m) j n <->
  (exists g p, nth_error gs p = Some g /\ n = (i + p)%nat /\ In j (route_range t is_eq g)) \/ asked m j n.
Proof.
  revert i m. induction gs as [|g gs IH]; intros i m; cbn [route_ranges_from].
  - split; auto. intros [(g & p & E & _)|]; auto. destruct p; discriminate.
  - rewrite IH, fold_add_asked. split.
    + intros [(g' & p & E & -> & I)|[[I ->]|H]]; auto.
      * left. exists g', (S p). repeat split; auto. lia.
      * left. exists g, O. repeat split; auto.
    + intros [(g' & [|p] & E & -> & I)|H]; auto.
      * cbn in E. injection E as <-. right. left. split; [auto|lia].
      * cbn in E. left. exists g', p. split; [auto|split; [lia|auto]].
Qed.
Lemma route_ranges_from_nodup t is_eq gs i m : NoDup (map fst m) -> NoDup (map fst (route_ranges_from t is_eq i gs m)).
Proof. revert i m. induction gs as [|g gs IH]; intros i m N; cbn; auto. apply IH, fold_add_nodup, N. Qed.
