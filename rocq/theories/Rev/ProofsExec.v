(* Term, AND and OR executors: what is left to return after each call. *)
From Coq Require Import ZArith List Bool Sorted Lia PeanoNat Permutation.
From Verif Require Import Common.Bytes Common.KV Sort.Model Sort.ProofsHeap Rev.Model Rev.Spec Rev.Order Rev.ProofsParser.
Import ListNotations.
Local Open Scope nat_scope.

(* ---- counting the keys above a key ---- *)
Definition above (U : list key) (c : key) : nat := length (filter (fun k => bltb c k) U).

Lemma above_len U c : above U c <= length U.
Proof. unfold above. induction U as [|x U IH]; cbn; [lia|]. destruct (bltb c x); cbn; lia. Qed.
Lemma above_mono U c c' : upto c c' -> above U c' <= above U c.
Proof.
  intros L. unfold above. induction U as [|x U IH]; cbn; [lia|].
  destruct (bltb c' x) eqn:B, (bltb c x) eqn:B'; cbn; try lia.
  apply bltb_below in B. apply bltb_upto in B'. exfalso. korder.
Qed.
Lemma above_lt U c c' : below c c' -> In c' U -> above U c' < above U c.
Proof.
  intros L. unfold above. induction U as [|x U IH]; intros HI; [destruct HI|]. cbn [filter].
  destruct HI as [->|HI].
  - assert (bltb c' c' = false) as -> by (apply bltb_upto; apply upto_refl).
    assert (bltb c c' = true) as -> by (apply bltb_below; exact L). cbn [length].
    pose proof (above_mono U c c' (below_le _ _ L)) as M. unfold above in M. lia.
  - specialize (IH HI). destruct (bltb c' x) eqn:B, (bltb c x) eqn:B'; cbn [length]; try lia.
    apply bltb_below in B. apply bltb_upto in B'. exfalso. korder.
Qed.

(* ---- what is left ---- *)
Definition vis (p : parser) (k : key) : Prop :=
  exists n, entry_of (pnew p) (pold p) k n /\ ndel n = false /\ before_end (psecond p) k.

Fixpoint rem (e : exec) (k : key) : Prop :=
  match e with
  | Term _ p cur => match cur with Some n => vis p k /\ upto (nkey n) k | None => False end
  | And _ null _ subs => null = false /\ fold_right (fun s P => rem s k /\ P) True subs
  | Or _ null _ subs => null = false /\ fold_right (fun s P => rem s k \/ P) False subs
  end.

Fixpoint good (e : exec) : Prop :=
  match e with
  | Term init p cur => init = false /\ pcur p = cur /\ p_ok p /\
      (forall n, cur = Some n -> ndel n = false /\ before_end (psecond p) (nkey n))
  | And init null c subs =>
      (null = true \/ init = false /\ subs <> [] /\ fold_right (fun s P => good s /\ P) True subs /\ Forall (fun s => current_id s = Some c) subs)
  | Or init null c subs =>
      (null = true \/ init = false /\ is_heap before subs /\ fold_right (fun s P => good s /\ P) True subs /\
        (exists s, nth_error subs 0 = Some s /\ current_id s = Some c) /\
        (forall j s c', 0 < j -> nth_error subs j = Some s -> current_id s = Some c' -> below c c'))
  end.

Fixpoint fresh (e : exec) : Prop :=
  match e with
  | Term init p cur => init = true /\ cur = None /\ p_ok p /\ (forall n, pcur p = Some n -> before_end (psecond p) (nkey n))
  | And init null c subs | Or init null c subs => init = true /\ null = false /\ fold_right (fun s P => fresh s /\ P) True subs
  end.

Fixpoint docs (e : exec) (k : key) : Prop :=
  match e with
  | Term _ p _ => match pcur p with Some n => vis p k /\ upto (nkey n) k | None => False end
  | And _ _ _ subs => subs <> [] /\ fold_right (fun s P => docs s k /\ P) True subs
  | Or _ _ _ subs => fold_right (fun s P => docs s k \/ P) False subs
  end.

Lemma fold_all (R : exec -> Prop) l : fold_right (fun s P => R s /\ P) True l <-> Forall R l.
Proof.
  induction l as [|x l IH]; cbn; [split; auto|]. rewrite IH. split; [intros []; constructor; auto|].
  intros F. inversion F; auto.
Qed.
Lemma fold_any (R : exec -> Prop) l : fold_right (fun s P => R s \/ P) False l <-> Exists R l.
Proof.
  induction l as [|x l IH]; cbn; [split; [intros []|intros X; inversion X]|]. rewrite IH. split.
  - intros [X|X]; [left|right]; exact X.
  - intros X. inversion X; auto.
Qed.

Section Ind.
  Variable P : exec -> Prop.
  Hypothesis HT : forall i p c, P (Term i p c).
  Hypothesis HA : forall i n c subs, Forall P subs -> P (And i n c subs).
  Hypothesis HO : forall i n c subs, Forall P subs -> P (Or i n c subs).
  Fixpoint exec_nest (e : exec) : P e :=
    let fix all l : Forall P l := match l with [] => Forall_nil P | s :: r => Forall_cons s (exec_nest s) (all r) end in
    match e with
    | Term i p c => HT i p c
    | And i n c subs => HA i n c subs (all subs)
    | Or i n c subs => HO i n c subs (all subs)
    end.
End Ind.

(* [c] is the least of a set of keys; None: the set is empty *)
Definition least (R : key -> Prop) (c : option key) : Prop :=
  match c with
  | Some c => R c /\ forall k, R k -> upto c k
  | None => forall k, ~ R k
  end.
Lemma least_ext (R R' : key -> Prop) c : (forall k, R k <-> R' k) -> least R c -> least R' c.
Proof.
  intros E. destruct c as [c|]; cbn.
  - intros [X Y]. split; [apply E; exact X|]. intros k Hk. apply Y, E, Hk.
  - intros X k Hk. apply (X k), E, Hk.
Qed.

(* ---- the order of executors in the heap ---- *)
Definition ole (x y : option key) : Prop :=
  match x, y with _, None => True | None, Some _ => False | Some a, Some b => upto a b end.
Lemma le_ole a b : le before a b <-> ole (current_id a) (current_id b).
Proof.
  unfold le, before, ole. destruct (current_id a) as [x|], (current_id b) as [y|]; try tauto; try (split; [discriminate|tauto]).
  apply bltb_upto.
Qed.
Lemma ole_trans a b c : ole a b -> ole b c -> ole a c.
Proof. destruct a as [a|], b as [b|], c as [c|]; cbn; try tauto. apply upto_trans. Qed.
Lemma ole_refl a : ole a a.
Proof. destruct a; cbn; [apply upto_refl|exact I]. Qed.
Lemma before_asym x y : True -> True -> before x y = true -> le before x y.
Proof.
  intros _ _ B. apply le_ole. unfold before in B. destruct (current_id x), (current_id y); cbn; try discriminate; auto.
  apply bltb_below in B. apply below_le. exact B.
Qed.
Lemma before_trans x y z : True -> True -> True -> le before x y -> le before y z -> le before x z.
Proof. intros _ _ _. rewrite !le_ole. apply ole_trans. Qed.
Lemma all_true (l : list exec) : Forall (fun _ => True) l.
Proof. induction l; constructor; auto. Qed.

Lemma heap_min subs s j t : is_heap before subs -> nth_error subs 0 = Some s -> nth_error subs j = Some t ->
  ole (current_id s) (current_id t).
Proof.
  intros Hh E0 Ej. pose proof (heap_root before (fun _ => True) before_asym before_trans subs j (all_true _) Hh) as O.
  rewrite (ord_at before subs 0 j s t E0 Ej) in O. apply le_ole. exact O.
Qed.

Lemma cur_least e : good e -> least (rem e) (current_id e).
Proof.
  induction e using exec_nest; cbn [good rem current_id].
  - intros (_&E&Ok&Hn). destruct c as [n|]; cbn; [|tauto]. destruct (Hn n eq_refl) as [D B].
    destruct Ok as (_&_&St). specialize (St n E). split; [|tauto]. split; [|apply upto_refl].
    exists n. split; [apply stands_entry; exact St|]. tauto.
  - intros [-> |(_&NE&Gs&Cs)]; [cbn; intros k [X _]; discriminate X|].
    destruct n; [cbn; intros k [X _]; discriminate X|]. rewrite fold_all in Gs. cbn. rewrite fold_all.
    assert (All : Forall (fun s => least (rem s) (Some c)) subs).
    { rewrite Forall_forall in *. intros s Hs. rewrite <- (Cs s Hs). apply H; auto. }
    split.
    + split; [reflexivity|]. eapply Forall_impl; [|exact All]. intros s [X _]. exact X.
    + intros k [_ Hk]. rewrite fold_all in Hk. destruct subs as [|s subs]; [congruence|].
      inversion All as [|? ? X _]. inversion Hk as [|? ? Y _]. apply X. exact Y.
  - intros [-> |(_&Hh&Gs&(s0&E0&C0)&_)]; [cbn; intros k [X _]; discriminate X|].
    destruct n; [cbn; intros k [X _]; discriminate X|]. rewrite fold_all in Gs. cbn. rewrite fold_any.
    rewrite Forall_forall in *. pose proof (nth_error_In _ _ E0) as I0. split.
    + split; [reflexivity|]. apply Exists_exists. exists s0. split; [exact I0|]. pose proof (H s0 I0 (Gs s0 I0)) as L.
      rewrite C0 in L. apply L.
    + intros k [_ Hk]. rewrite fold_any in Hk. apply Exists_exists in Hk. destruct Hk as (s&Hs&Rk).
      pose proof (H s Hs (Gs s Hs)) as L. apply In_nth_error in Hs. destruct Hs as [j Ej].
      pose proof (heap_min subs s0 j s Hh E0 Ej) as O. rewrite C0 in O. destruct (current_id s) as [c'|]; cbn in O, L.
      * pose proof (proj2 L k Rk). korder.
      * destruct (L k Rk).
Qed.

Lemma cur_univ e : good e -> forall c, current_id e = Some c -> In c (univ e).
Proof.
  induction e using exec_nest; cbn [good univ current_id].
  - intros (_&E&Ok&Hn) k Hk. destruct c as [n|]; [|discriminate]. injection Hk as <-.
    destruct Ok as (_&_&St). specialize (St n E). apply stands_entry in St. apply in_or_app. destruct St as [_ [St|[St _]]]; [left|right]; apply in_map; exact St.
  - intros [-> |(_&NE&Gs&Cs)] k Hk; [discriminate|]. destruct n; [discriminate|]. injection Hk as <-.
    destruct subs as [|s subs]; [congruence|]. cbn in *. apply in_or_app. left. inversion H; subst. inversion Cs; subst. apply H2; tauto.
  - intros [-> |(_&Hh&Gs&(s0&E0&C0)&_)] k Hk; [discriminate|]. destruct n; [discriminate|]. injection Hk as <-.
    apply in_flat_map. exists s0. pose proof (nth_error_In _ _ E0) as I0. split; [exact I0|].
    rewrite fold_all in Gs. rewrite Forall_forall in *. apply H; auto.
Qed.

(* ---- the effect of a call ---- *)
Definition keeps (o : op) (e : exec) (k : key) : Prop :=
  rem e k /\ match o with Next => current_id e <> Some k | Adv t => upto t k end.
Definition does (o : op) (e e' : exec) : Prop :=
  good e' /\ incl (univ e') (univ e) /\ forall k, rem e' k <-> keeps o e k.
Definition starts (e e' : exec) : Prop :=
  good e' /\ incl (univ e') (univ e) /\ forall k, rem e' k <-> docs e k.

Lemma does_up o e e' : good e -> does o e e' -> ole (current_id e) (current_id e').
Proof.
  intros Ge (Ge'&_&R). pose proof (cur_least e Ge) as L. pose proof (cur_least e' Ge') as L'.
  destruct (current_id e') as [c'|]; [|destruct (current_id e); exact I]. cbn in L'. destruct L' as [L' _].
  apply R in L'. destruct L' as [L' _]. destruct (current_id e) as [c|]; cbn in *; [apply L; exact L'|destruct (L c' L')].
Qed.
Lemma next_leaves e e' c : good e -> does Next e e' -> current_id e = Some c -> current_id e' <> Some c.
Proof.
  intros Ge (Ge'&_&R) E X. pose proof (cur_least e' Ge') as L'. rewrite X in L'. destruct L' as [L' _]. apply R in L'. destruct L' as [_ L']. congruence.
Qed.

(* ---- terms ---- *)
Lemma entry_unique new old k a b : ascending new -> ascending old -> entry_of new old k a -> entry_of new old k b -> a = b.
Proof.
  intros Sn So [Ea Ha] [Eb Hb].
  assert (U : forall l, ascending l -> In a l -> In b l -> a = b).
  { intros l Sl Ia Ib. apply In_nth_error in Ia, Ib. destruct Ia as [i Hi], Ib as [j Hj].
    assert (i = j) by (eapply ascending_same; eauto; congruence). subst. congruence. }
  destruct Ha as [Ha|[Ha Na]], Hb as [Hb|[Hb Nb]]; eauto.
  - destruct (Nb a Ha Ea).
  - destruct (Na b Hb Eb).
Qed.

Lemma same_vis p q k : same p q -> vis p k <-> vis q k.
Proof. intros (A&B&C&D). unfold vis. rewrite A, B, D. reflexivity. Qed.
Lemma same_univ p q i j c d : same p q -> univ (Term i p c) = univ (Term j q d).
Proof. intros (A&B&_). cbn. rewrite A, B. reflexivity. Qed.
Lemma same_trans p q r : same p q -> same q r -> same p r.
Proof. intros (A&B&C&D) (A'&B'&C'&D'). repeat split; congruence. Qed.
Lemma same_refl p : same p p.
Proof. repeat split. Qed.

(* from a parser standing at or before a bound, the executor with what is left *)
Definition left_from (p : parser) (Q : key -> Prop) (e : exec) : Prop :=
  exists p' cur, e = Term false p' cur /\ same p' p /\ good e /\ forall k, rem e k <-> vis p k /\ ~ Q k.

Definition keys_of (p : parser) : list key := map nkey (pnew p) ++ map nkey (pold p).
Lemma entry_key p k n : entry_of (pnew p) (pold p) k n -> In k (keys_of p).
Proof. intros [<- [X|[X _]]]; apply in_or_app; [left|right]; apply in_map; exact X. Qed.

(* what follows a parser call that found [pcur p1] *)
Lemma settle p p1 Q (again : parser -> option exec) : closed Q -> same p1 p -> p_ok p1 -> finds p Q (pcur p1) ->
  (forall n, pcur p1 = Some n -> ndel n = true -> exists e, again p1 = Some e /\ left_from p (fun k => upto k (nkey n)) e) ->
  exists e, match pcur p1 with
            | None => Some (Term false p1 None)
            | Some n => if ndel n then again p1 else Some (Term false p1 (Some n))
            end = Some e /\ left_from p Q e.
Proof.
  intros Cl Sp Ok F Hd. destruct (pcur p1) as [n|] eqn:E; cbn in F.
  - destruct F as (N1&N2&N3). pose proof Sp as Sp'. destruct Sp' as (EA&EB&EC&ED).
    pose proof Ok as Ok'. destruct Ok' as (O1&O2&O3). pose proof (stands_entry p1 n (O3 n E)) as En. rewrite EA, EB in *.
    destruct (ndel n) eqn:D.
    + destruct (Hd n eq_refl D) as (e&Ea&(p'&cur&Ee&Se&Ge&Re)). exists e. split; [exact Ea|]. exists p', cur. split; [exact Ee|]. split; [exact Se|]. split; [exact Ge|].
      intros k. rewrite Re. split; intros [V X]; (split; [exact V|]).
      * intros Y. apply X. destruct (below_or k (nkey n)) as [B|B]; [korder|]. destruct N1. eapply Cl; eauto.
      * destruct V as (m&Em&Dm&_). intros Y. pose proof (N3 k m Em X) as Z. assert (k = nkey n) by korder. subst k.
        rewrite (entry_unique _ _ _ _ _ O1 O2 Em En) in Dm. congruence.
    + eexists. split; [reflexivity|]. exists p1, (Some n). split; [reflexivity|]. split; [exact Sp|]. split.
      * cbn. split; [reflexivity|]. split; [exact E|]. split; [exact Ok|]. intros m [= <-]. rewrite ED. tauto.
      * intros k. cbn [rem]. rewrite (same_vis p1 p k Sp). split; intros [V X]; (split; [exact V|]).
        -- intros Y. apply N1. eapply Cl; eauto.
        -- destruct V as (m&Em&_). apply (N3 k m Em X).
  - eexists. split; [reflexivity|]. exists p1, None. split; [reflexivity|]. split; [exact Sp|]. split.
    + cbn. split; [reflexivity|]. split; [exact E|]. split; [exact Ok|]. intros m X. discriminate X.
    + intros k. cbn [rem]. split; [intros []|]. intros [(m&Em&_&B) X]. apply (F k m Em X B).
Qed.

Lemma term_next_ok rounds : forall p c, p_ok p -> pcur p = Some c -> above (keys_of p) (nkey c) < rounds ->
  exists e, term_next rounds false p = Some e /\ left_from p (fun k => upto k (nkey c)) e.
Proof.
  induction rounds as [|r IH]; intros p c Ok E R; [lia|]. cbn [term_next].
  destruct (p_next_ok p c Ok E) as (p1&E1&Sp&Ok1&F). rewrite E1.
  apply settle; auto; [apply closed_upto|]. intros n En D.
  destruct (IH p1 n Ok1 En) as (e&Ee&(p'&cur&X1&X2&X3&X4)).
  - rewrite En in F. destruct F as (F1&_). apply not_upto in F1.
    assert (KE : keys_of p1 = keys_of p) by (unfold keys_of; destruct Sp as (->&->&_); reflexivity). rewrite KE.
    destruct Ok1 as (_&_&St). pose proof (entry_key _ _ _ (stands_entry _ _ (St n En))) as IK. rewrite KE in IK.
    pose proof (above_lt _ _ _ F1 IK). lia.
  - exists e. split; [exact Ee|]. exists p', cur. split; [exact X1|]. split; [eapply same_trans; eauto|]. split; [exact X3|].
    intros k. rewrite X4. rewrite (same_vis p1 p k Sp). reflexivity.
Qed.

Lemma term_next_first rounds p : p_ok p -> (forall n, pcur p = Some n -> before_end (psecond p) (nkey n)) -> length (keys_of p) + 2 <= rounds ->
  exists e, term_next rounds true p = Some e /\ starts (Term true p None) e.
Proof.
  intros Ok B R. destruct rounds as [|r]; [lia|]. cbn [term_next].
  destruct (pcur p) as [n|] eqn:E.
  - destruct (ndel n) eqn:D.
    + destruct (term_next_ok r p n Ok E) as (e&Ee&(p'&cur&X1&X2&X3&X4)); [pose proof (above_len (keys_of p) (nkey n)); lia|].
      exists e. split; [exact Ee|]. split; [exact X3|]. split; [rewrite X1, (same_univ p' p false true cur None X2); apply incl_refl|].
      intros k. rewrite X4. cbn [docs]. rewrite E. split; intros [V X]; (split; [exact V|]); [korder|].
      destruct V as (m&Em&Dm&_). intros Y. assert (k = nkey n) by korder. subst k. destruct Ok as (O1&O2&O3).
      rewrite (entry_unique _ _ _ _ _ O1 O2 Em (stands_entry p n (O3 n E))) in Dm. congruence.
    + eexists. split; [reflexivity|]. split; [|split; [apply incl_refl|]].
      * cbn. split; [reflexivity|]. split; [exact E|]. split; [exact Ok|]. intros m [= <-]. auto.
      * intros k. cbn [rem docs]. rewrite E. reflexivity.
  - eexists. split; [reflexivity|]. split; [|split; [apply incl_refl|]].
    + cbn. split; [reflexivity|]. split; [exact E|]. split; [exact Ok|]. intros m X; discriminate X.
    + intros k. cbn [rem docs]. rewrite E. reflexivity.
Qed.

Lemma term_step o p cur : good (Term false p cur) ->
  exists e, match o with Next => term_next (term_rounds p) false p | Adv t => term_advance p cur t end = Some e /\
    does o (Term false p cur) e.
Proof.
  intros Hg. pose proof Hg as (_&E&Ok&B).
  assert (FIN : forall Q e, left_from p Q e -> (forall k, vis p k -> ~ Q k <-> match cur with Some n => upto (nkey n) k /\ match o with Next => current_id (Term false p cur) <> Some k | Adv t => upto t k end | None => False end) ->
    does o (Term false p cur) e).
  { intros Q e (p'&cur'&X1&X2&X3&X4) HQ. split; [exact X3|]. split; [rewrite X1, (same_univ p' p false false cur' cur X2); apply incl_refl|].
    intros k. rewrite X4. unfold keeps. cbn [rem]. destruct cur as [n|].
    - split; [intros [V X]|intros [[V Y] Z]]; (pose proof (HQ k V); tauto).
    - split; [intros [V X]; destruct (proj1 (HQ k V) X)|tauto]. }
  destruct cur as [n|].
  - destruct o as [|t].
    + destruct (term_next_ok (term_rounds p) p n Ok E) as (e&Ee&L).
      { unfold term_rounds. pose proof (above_len (keys_of p) (nkey n)) as X. unfold keys_of in *. rewrite app_length, !map_length in X. lia. }
      exists e. split; [exact Ee|]. eapply FIN; [exact L|]. intros k _. cbn. split.
      * intros X. split; [korder|]. intros [= Y]. rewrite Y in X. apply X, upto_refl.
      * intros [X Y] Z. apply Y. f_equal. korder.
    + unfold term_advance. destruct (bleb t (nkey n)) eqn:T.
      * apply bleb_upto in T. eexists. split; [reflexivity|]. split; [exact Hg|]. split; [apply incl_refl|].
        intros k. unfold keeps. cbn [rem]. split; [|tauto]. intros [V X]. split; [split; assumption|]. korder.
      * apply bleb_below in T. destruct (p_advance_ok p n t Ok E (below_le _ _ T)) as (p1&E1&Sp&Ok1&F). rewrite E1.
        destruct (settle p p1 (fun k => below k t) (fun q => term_next (term_rounds q) false q)) as (e&Ee&L); auto; [apply closed_below| |].
        -- intros m Em Dm. destruct (term_next_ok (term_rounds p1) p1 m Ok1 Em) as (e&Ee&(p'&cur&X1&X2&X3&X4)).
           { unfold term_rounds. pose proof (above_len (keys_of p1) (nkey m)) as X. unfold keys_of in *. rewrite app_length, !map_length in X. lia. }
           exists e. split; [exact Ee|]. exists p', cur. split; [exact X1|]. split; [eapply same_trans; eauto|]. split; [exact X3|].
           intros k. rewrite X4. rewrite (same_vis p1 p k Sp). reflexivity.
        -- exists e. split; [exact Ee|]. eapply FIN; [exact L|]. intros k _. cbn. split; [intros X; split; korder|intros [X Y]; korder].
  - assert (D : does o (Term false p None) (Term false p None)).
    { split; [exact Hg|]. split; [apply incl_refl|]. intros k. unfold keeps. cbn. tauto. }
    destruct o as [|t]; [|exists (Term false p None); split; [reflexivity|exact D]].
    exists (Term false p None). split; [|exact D]. unfold term_rounds. cbn [term_next]. unfold p_next. rewrite E. rewrite E. reflexivity.
Qed.

(* ---- AND and OR ---- *)
Lemma Forall_upd {A} (P : A -> Prop) i x l : Forall P l -> P x -> Forall P (upd i x l).
Proof.
  intros F Px. unfold upd. apply Forall_app. split.
  - rewrite Forall_forall in *. intros y Hy. apply F. rewrite <- (firstn_skipn i l). apply in_or_app. left. exact Hy.
  - pose proof (firstn_skipn i l) as E. destruct (skipn i l) as [|y r]; [constructor|]. constructor; [exact Px|].
    rewrite <- E in F. apply Forall_app in F. destruct F as [_ F]. inversion F; auto.
Qed.
Lemma upd_split {A} i (x y : A) l : nth_error l i = Some y -> exists a b, l = a ++ y :: b /\ length a = i /\ upd i x l = a ++ x :: b.
Proof.
  intros E. destruct (nth_error_split l i E) as (a&b&->&La). exists a, b. split; [reflexivity|]. split; [exact La|]. unfold upd. subst i.
  rewrite firstn_app, Nat.sub_diag, firstn_all, firstn_O, app_nil_r.
  rewrite skipn_app, Nat.sub_diag, skipn_all. reflexivity.
Qed.

Section Ops.
  Variable sub : op -> exec -> option exec.
  Variable H : exec -> Prop.  (* the sub-clauses the calls are known to work for *)
  Definition G (s : exec) : Prop := good s /\ H s.
  Hypothesis Hstep : forall o s, G s -> exists s', sub o s = Some s' /\ does o s s' /\ H s'.

  Variable U : list key.
  Definition inU (s : exec) : Prop := incl (univ s) U.

  Lemma at_pos_ok o i subs : Forall G subs -> i < length subs -> Forall inU subs ->
    exists s s', nth_error subs i = Some s /\ at_pos sub o i subs = Some (upd i s' subs) /\ G s /\ does o s s' /\ G s' /\ inU s'.
  Proof.
    intros F L FU. destruct (nth_error subs i) as [s|] eqn:E; [|apply nth_error_None in E; lia].
    pose proof (nth_error_In _ _ E) as HI. rewrite Forall_forall in F. pose proof (F s HI) as Gs.
    destruct (Hstep o s Gs) as (s'&E'&D&Hs'). exists s, s'. split; [reflexivity|]. unfold at_pos. rewrite E, E'.
    split; [reflexivity|]. split; [exact Gs|]. split; [exact D|]. split; [split; [apply D|exact Hs']|].
    rewrite Forall_forall in FU. intros k Hk. apply (FU s HI). apply D. exact Hk.
  Qed.

  Definition I (subs : list exec) (k : key) : Prop := Forall (fun s => rem s k) subs.
  Definition J (subs : list exec) (k : key) : Prop := Exists (fun s => rem s k) subs.

  Lemma I_upd i s s' subs k : nth_error subs i = Some s -> I (upd i s' subs) k <-> (forall j t, j <> i -> nth_error subs j = Some t -> rem t k) /\ rem s' k.
  Proof.
    intros E. assert (L : i < length subs) by (apply nth_error_Some; congruence). unfold I. rewrite Forall_forall. split.
    - intros F. split.
      + intros j t Nj Ej. apply F. apply (nth_error_In _ j). rewrite nth_upd by exact L. destruct (Nat.eqb_spec j i); [congruence|exact Ej].
      + apply F. apply (nth_error_In _ i). rewrite nth_upd by exact L. rewrite Nat.eqb_refl. reflexivity.
    - intros [F R] x Hx. apply In_nth_error in Hx. destruct Hx as [j Hx]. rewrite nth_upd in Hx by exact L.
      destruct (Nat.eqb_spec j i); [injection Hx as <-; exact R|eapply F; eauto].
  Qed.
  Lemma I_at i s subs k : nth_error subs i = Some s -> I subs k <-> (forall j t, j <> i -> nth_error subs j = Some t -> rem t k) /\ rem s k.
  Proof.
    intros E. unfold I. rewrite Forall_forall. split.
    - intros F. split; [intros j t _ Ej; apply F; eapply nth_error_In; eauto|apply F; eapply nth_error_In; eauto].
    - intros [F R] x Hx. apply In_nth_error in Hx. destruct Hx as [j Hx]. destruct (Nat.eq_dec j i) as [->|Nj]; [congruence|eapply F; eauto].
  Qed.

  (* -- AND -- *)
  (* rounds until the forward position meets the pivot *)
  Definition dist (n pivot i : nat) : nat := if i <=? pivot then pivot - i else pivot + n - i.

  Lemma and_loop_ok rounds : forall c pivot forward subs,
    Forall G subs -> Forall inU subs -> In c U -> pivot < length subs -> forward < length subs ->
    above U c * length subs + dist (length subs) pivot forward < rounds ->
    (forall i s, nth_error subs i = Some s -> dist (length subs) pivot i = 0 \/ dist (length subs) pivot forward < dist (length subs) pivot i -> current_id s = Some c) ->
    exists null c' subs', and_loop sub rounds c pivot forward subs = Some (null, c', subs') /\
      Forall G subs' /\ Forall inU subs' /\ length subs' = length subs /\
      if null then forall k, ~ I subs k else Forall (fun s => current_id s = Some c') subs' /\ forall k, I subs' k <-> I subs k.
  Proof.
    induction rounds as [|r IH]; intros c pivot forward subs F FU Uc Lp Lf Rd Vis; [lia|].
    cbn [and_loop]. destruct (Nat.eqb_spec forward pivot) as [E|E].
    - subst forward. assert (All : Forall (fun s => current_id s = Some c) subs).
      { rewrite Forall_forall. intros s Hs. apply In_nth_error in Hs. destruct Hs as [i Hi]. apply (Vis i s Hi).
        assert (i < length subs) by (apply nth_error_Some; congruence). unfold dist. destruct (Nat.leb_spec i pivot), (Nat.leb_spec pivot pivot); lia. }
      assert (AT : forall i, i < length subs -> exists s, nth_error subs i = Some s /\ current_id s = Some c).
      { intros i L. destruct (nth_error subs i) as [s|] eqn:Ei; [|apply nth_error_None in Ei; lia]. exists s. split; [reflexivity|].
        rewrite Forall_forall in All. apply All. eapply nth_error_In; eauto. }
      destruct (AT pivot Lp) as (s&Es&Cs). rewrite Es, Cs. destruct (AT 0 ltac:(lia)) as (s0&Es0&Cs0). rewrite Es0, Cs0.
      exists false, c, subs. split; [reflexivity|]. split; [exact F|]. split; [exact FU|]. split; [reflexivity|]. split; [exact All|reflexivity].
    - destruct (at_pos_ok (Adv c) forward subs F Lf FU) as (s&s'&Es&Ea&Gs&D&Gs'&Us'). rewrite Ea. rewrite nth_upd by exact Lf. rewrite Nat.eqb_refl.
      assert (F' : Forall G (upd forward s' subs)) by (apply Forall_upd; assumption).
      assert (FU' : Forall inU (upd forward s' subs)) by (apply Forall_upd; assumption).
      assert (Cp : exists sp, nth_error subs pivot = Some sp /\ current_id sp = Some c).
      { destruct (nth_error subs pivot) as [sp|] eqn:Ep; [|apply nth_error_None in Ep; lia]. exists sp. split; [reflexivity|]. apply (Vis pivot sp Ep). left. unfold dist. destruct (Nat.leb_spec pivot pivot); lia. }
      destruct Cp as (sp&Ep&Csp).
      assert (LOW : forall k, I subs k -> upto c k).
      { intros k Hk. unfold I in Hk. rewrite Forall_forall in Hk. specialize (Hk sp (nth_error_In _ _ Ep)).
        rewrite Forall_forall in F. destruct (F sp (nth_error_In _ _ Ep)) as [gp _]. pose proof (cur_least sp gp) as L. rewrite Csp in L. apply L. exact Hk. }
      assert (KEEP : forall k, I (upd forward s' subs) k <-> I subs k).
      { intros k. rewrite (I_upd forward s s' subs k Es), (I_at forward s subs k Es).
        destruct D as (_&_&D). split.
        - intros [X Y]. split; [exact X|]. apply D in Y. apply Y.
        - intros [X Y]. split; [exact X|]. apply D. split; [exact Y|]. apply LOW. apply (I_at forward s subs k Es). tauto. }
      destruct (current_id s') as [c'|] eqn:Cs'.
      + pose proof (cur_least s' (proj1 Gs')) as L. rewrite Cs' in L. destruct L as [L _].
        destruct D as (_&_&D). pose proof L as L2. apply D in L2. destruct L2 as [_ L2]. cbn in L2.
        assert (Uc' : In c' U) by (apply Us'; apply cur_univ; [apply Gs'|exact Cs']).
        set (fwd2 := if forward =? length subs - 1 then 0 else S forward).
        assert (Lf2 : fwd2 < length subs) by (unfold fwd2; destruct (Nat.eqb_spec forward (length subs - 1)); lia).
        assert (GO : forall c2 pivot2, In c2 U -> pivot2 < length subs ->
          above U c2 * length subs + dist (length subs) pivot2 fwd2 < r ->
          (forall i t, nth_error (upd forward s' subs) i = Some t -> dist (length subs) pivot2 i = 0 \/ dist (length subs) pivot2 fwd2 < dist (length subs) pivot2 i -> current_id t = Some c2) ->
          exists null c' subs', and_loop sub r c2 pivot2 fwd2 (upd forward s' subs) = Some (null, c', subs') /\
            Forall G subs' /\ Forall inU subs' /\ length subs' = length subs /\
            if null then forall k, ~ I subs k else Forall (fun s => current_id s = Some c') subs' /\ forall k, I subs' k <-> I subs k).
        { intros c2 pivot2 Uc2 Lp2 Rd2 Vis2. destruct (IH c2 pivot2 fwd2 (upd forward s' subs)) as (null&c3&subs3&X1&X2&X3&X4&X5); rewrite ?upd_length; auto.
          exists null, c3, subs3. rewrite upd_length in X4. split; [exact X1|]. split; [exact X2|]. split; [exact X3|]. split; [exact X4|].
          destruct null; [intros k Hk; apply (X5 k), KEEP, Hk|]. destruct X5 as [X5 X6]. split; [exact X5|]. intros k. rewrite X6. apply KEEP. }
        destruct (beqb c' c) eqn:B.
        * apply beqb_eq in B. subst c'. apply GO; [exact Uc|exact Lp| |].
          -- unfold dist, fwd2 in *. destruct (Nat.eqb_spec forward (length subs - 1)); destruct (Nat.leb_spec forward pivot); destruct (Nat.leb_spec (S forward) pivot); destruct (Nat.leb_spec 0 pivot); lia.
          -- intros i t Ht Hd. rewrite nth_upd in Ht by exact Lf. destruct (Nat.eqb_spec i forward) as [Ei|Ei]; [congruence|].
             apply (Vis i t Ht). assert (i < length subs) by (apply nth_error_Some; congruence).
             unfold dist, fwd2 in *. destruct (Nat.eqb_spec forward (length subs - 1)); destruct (Nat.leb_spec forward pivot); destruct (Nat.leb_spec (S forward) pivot); destruct (Nat.leb_spec 0 pivot); destruct (Nat.leb_spec i pivot); lia.
        * assert (BL : below c c').
          { apply upto_cases in L2. destruct L2 as [L2|L2]; [exact L2|]. subst c'. rewrite (proj2 (beqb_eq c c) eq_refl) in B. discriminate. }
          pose proof (above_lt U c c' BL Uc') as AL. apply GO; [exact Uc'|exact Lf| |].
          -- assert (dist (length subs) forward fwd2 < length subs) by (unfold dist, fwd2; destruct (Nat.eqb_spec forward (length subs - 1)); [destruct (Nat.leb_spec 0 forward)|destruct (Nat.leb_spec (S forward) forward)]; lia).
             assert (S (above U c') * length subs <= above U c * length subs) by (apply Nat.mul_le_mono_r; lia). lia.
          -- intros i t Ht Hd. rewrite nth_upd in Ht by exact Lf. destruct (Nat.eqb_spec i forward) as [Ei|Ei]; [congruence|].
             assert (i < length subs) by (apply nth_error_Some; congruence). exfalso.
             unfold dist, fwd2 in *. destruct (Nat.eqb_spec forward (length subs - 1)); destruct (Nat.leb_spec (S forward) forward); destruct (Nat.leb_spec 0 forward); destruct (Nat.leb_spec i forward); lia.
      + exists true, c, (upd forward s' subs). split; [reflexivity|]. split; [exact F'|]. split; [exact FU'|]. split; [apply upd_length|].
        intros k Hk. apply KEEP in Hk. unfold I in Hk. rewrite Forall_forall in Hk.
        assert (In s' (upd forward s' subs)) as HI by (apply (nth_error_In _ forward); rewrite nth_upd by exact Lf; rewrite Nat.eqb_refl; reflexivity).
        pose proof (cur_least s' (proj1 Gs')) as L. rewrite Cs' in L. apply (L k). apply Hk. exact HI.
  Qed.

  (* the state of an AND or OR node after a call *)
  Definition node_ok (R : key -> Prop) (e : exec) : Prop :=
    good e /\ incl (univ e) U /\ (forall k, rem e k <-> R k) /\
    match e with Term _ _ _ => False | And _ _ _ subs | Or _ _ _ subs => Forall H subs end.

  Lemma G_H l : Forall G l -> Forall H l.
  Proof. apply Forall_impl. intros a []; assumption. Qed.
  Lemma G_good l : Forall G l -> Forall good l.
  Proof. apply Forall_impl. intros a []; assumption. Qed.
  Lemma inU_flat l : Forall inU l -> incl (flat_map univ l) U.
  Proof. intros F k Hk. apply in_flat_map in Hk. destruct Hk as (s&Hs&Hk). rewrite Forall_forall in F. apply (F s Hs). exact Hk. Qed.
  Lemma in_flat_U l : incl (flat_map univ l) U -> Forall inU l.
  Proof. intros F. rewrite Forall_forall. intros s Hs k Hk. apply F. apply in_flat_map. eauto. Qed.

  Lemma and_null c subs (R : key -> Prop) : Forall H subs -> Forall inU subs -> (forall k, ~ R k) -> node_ok R (And false true c subs).
  Proof.
    intros F FU N. split; [cbn; tauto|]. split; [cbn; apply inU_flat; exact FU|]. split; [|exact F].
    intros k. cbn. split; [intros [X _]; discriminate X|]. intros X. destruct (N k X).
  Qed.
End Ops.

Lemma and_find_ok sub H (Hstep : forall o s, G H s -> exists s', sub o s = Some s' /\ does o s s' /\ H s') U c subs :
  Forall (G H) subs -> Forall (inU U) subs -> subs <> [] ->
  exists e, and_find sub c subs = Some e /\ node_ok H U (I subs) e.
Proof.
  intros F FU NE. unfold and_find. assert (L : 0 < length subs) by (destruct subs; [congruence|cbn; lia]).
  destruct (nth_error subs (length subs - 1)) as [s|] eqn:E; [|apply nth_error_None in E; lia].
  assert (Gs : G H s) by (rewrite Forall_forall in F; apply F; eapply nth_error_In; eauto).
  destruct (current_id s) as [c'|] eqn:C.
  - set (U' := flat_map univ subs).
    assert (FU' : Forall (inU U') subs) by (apply in_flat_U; apply incl_refl).
    destruct (and_loop_ok sub H Hstep U' (S (length U') * length subs) c' (length subs - 1) 0 subs) as (null&c2&subs2&E2&F2&FU2&L2&X2); auto; try lia.
    + unfold U'. apply in_flat_map. exists s. split; [eapply nth_error_In; eauto|]. apply cur_univ; [apply Gs|exact C].
    + pose proof (above_len U' c') as AL. pose proof (Nat.mul_le_mono_r _ _ (length subs) AL). unfold dist. destruct (Nat.leb_spec 0 (length subs - 1)); lia.
    + intros i t Et Hd. assert (i < length subs) by (apply nth_error_Some; congruence).
      assert (i = length subs - 1) by (unfold dist in Hd; destruct (Nat.leb_spec 0 (length subs - 1)); destruct (Nat.leb_spec i (length subs - 1)); lia). congruence.
    + rewrite E2. eexists. split; [reflexivity|].
      assert (FUU : Forall (inU U) subs2).
      { eapply Forall_impl; [|exact FU2]. intros x Hx k Hk. apply (inU_flat U subs FU). apply Hx. exact Hk. }
      destruct null.
      * apply and_null; [apply G_H; exact F2|exact FUU|exact X2].
      * destruct X2 as [X2 X3]. split; [|split; [apply inU_flat; exact FUU|split; [|apply G_H; exact F2]]].
        -- cbn. right. split; [reflexivity|]. split; [intros ->; cbn in L2; lia|]. rewrite fold_all. split; [eapply G_good; eauto|exact X2].
        -- intros k. cbn. rewrite fold_all. rewrite <- (X3 k). unfold I. tauto.
  - eexists. split; [reflexivity|]. apply and_null; [apply G_H; exact F|exact FU|]. intros k Hk.
    unfold I in Hk. rewrite Forall_forall in Hk. specialize (Hk s (nth_error_In _ _ E)).
    pose proof (cur_least s (proj1 Gs)) as Ls. rewrite C in Ls. apply (Ls k Hk).
Qed.

Section Nodes.
  Variable sub : op -> exec -> option exec.
  Variable H : exec -> Prop.
  Hypothesis Hstep : forall o s, G H s -> exists s', sub o s = Some s' /\ does o s s' /\ H s'.
  Hypothesis Hfirst : forall s, fresh s -> H s -> exists s', sub Next s = Some s' /\ starts s s' /\ H s'.
  Variable U : list key.

  Lemma first_inU s s' : inU U s -> starts s s' -> inU U s'.
  Proof. intros X (_&Y&_) k Hk. apply X, Y, Hk. Qed.

  Lemma all_subs_ok subs : Forall fresh subs -> Forall H subs -> Forall (inU U) subs ->
    exists b subs', all_subs sub Next subs = Some (b, subs') /\ Forall H subs' /\ Forall (inU U) subs' /\ length subs' = length subs /\
      if b then Forall good subs' /\ forall k, I subs' k <-> Forall (fun s => docs s k) subs else forall k, ~ Forall (fun s => docs s k) subs.
  Proof.
    induction subs as [|s r IH]; intros F FH FU.
    - exists true, []. split; [reflexivity|]. split; [constructor|]. split; [constructor|]. split; [reflexivity|]. split; [constructor|]. intros k. split; constructor.
    - inversion F as [|? ? Fs Fr]; subst. inversion FH as [|? ? Hs Hr]; subst. inversion FU as [|? ? Us Ur]; subst.
      cbn [all_subs]. destruct (Hfirst s Fs Hs) as (s'&Es&St&Hs'). rewrite Es. pose proof (first_inU s s' Us St) as Us'.
      destruct St as (Gs'&_&Rs'). pose proof (cur_least s' Gs') as L. destruct (current_id s') as [c|].
      + destruct (IH Fr Hr Ur) as (b&r'&Er&X1&X2&X3&X4). rewrite Er. exists b, (s' :: r'). split; [reflexivity|].
        split; [constructor; assumption|]. split; [constructor; assumption|]. split; [cbn; lia|]. destruct b.
        * destruct X4 as [X4 X5]. split; [constructor; assumption|]. intros k. unfold I in *. split; intros Y; inversion Y; subst; constructor; try (apply Rs'; assumption); apply X5; assumption.
        * intros k Y. inversion Y; subst. apply (X4 k). assumption.
      + exists false, (s' :: r). split; [reflexivity|]. split; [constructor; assumption|]. split; [constructor; assumption|]. split; [reflexivity|].
        intros k Y. inversion Y; subst. apply (L k). apply Rs'. assumption.
  Qed.

  Lemma each_ok subs : Forall fresh subs -> Forall H subs -> Forall (inU U) subs ->
    exists subs', each sub Next subs = Some subs' /\ Forall (G H) subs' /\ Forall (inU U) subs' /\ length subs' = length subs /\
      forall k, J subs' k <-> Exists (fun s => docs s k) subs.
  Proof.
    induction subs as [|s r IH]; intros F FH FU.
    - exists []. split; [reflexivity|]. split; [constructor|]. split; [constructor|]. split; [reflexivity|]. intros k. unfold J. split; intros X; inversion X.
    - inversion F as [|? ? Fs Fr]; subst. inversion FH as [|? ? Hs Hr]; subst. inversion FU as [|? ? Us Ur]; subst.
      cbn [each]. destruct (Hfirst s Fs Hs) as (s'&Es&St&Hs'). rewrite Es. pose proof (first_inU s s' Us St) as Us'.
      destruct (IH Fr Hr Ur) as (r'&Er&X1&X2&X3&X4). rewrite Er. exists (s' :: r'). split; [reflexivity|].
      split; [constructor; [split; [apply St|exact Hs']|exact X1]|]. split; [constructor; assumption|]. split; [cbn; lia|].
      intros k. destruct St as (_&_&R). unfold J in *. rewrite !Exists_cons, R, X4. reflexivity.
  Qed.


  Lemma and_first c subs : Forall fresh subs -> Forall H subs -> Forall (inU U) subs ->
    exists e, and_step sub Next true false c subs = Some e /\ node_ok H U (docs (And true false c subs)) e.
  Proof.
    intros F FH FU. unfold and_step. destruct subs as [|s0 r].
    - eexists. split; [reflexivity|]. split; [cbn; tauto|split; [cbn; intros k []|split; [|constructor]]].
      intros k. cbn. split; [intros [X _]; discriminate X|tauto].
    - cbn [orb]. destruct (all_subs_ok (s0 :: r) F FH FU) as (b&subs'&E&X1&X2&X3&X4). rewrite E. destruct b.
      + destruct X4 as [X4 X5]. assert (FG : Forall (G H) subs').
        { rewrite Forall_forall in *. intros s Hs. split; auto. }
        destruct (and_find_ok sub H Hstep U c subs' FG X2) as (e&Ee&(N1&N2&N3&N4)); [intros ->; discriminate X3|].
        exists e. split; [exact Ee|]. split; [exact N1|]. split; [exact N2|]. split; [|exact N4].
        intros k. rewrite N3, X5. cbn [docs]. rewrite fold_all. split; [intros Y; split; [discriminate|exact Y]|tauto].
      + eexists. split; [reflexivity|]. apply and_null; [exact X1|exact X2|]. intros k [_ Y]. rewrite fold_all in Y. apply (X4 k Y).
  Qed.

  Lemma and_again o init null c subs : good (And init null c subs) -> Forall H subs -> Forall (inU U) subs ->
    exists e, and_step sub o init null c subs = Some e /\ node_ok H U (keeps o (And init null c subs)) e.
  Proof.
    intros Hg FH FU. unfold and_step.
    destruct (match subs with [] => true | _ => false end || null) eqn:B.
    { eexists. split; [reflexivity|]. split; [cbn; tauto|split; [cbn; apply inU_flat; exact FU|split; [|exact FH]]].
      intros k. unfold keeps. cbn. split; [intros [X _]; discriminate X|]. intros [[X Y] Z]. subst null.
      rewrite orb_false_r in B. destruct Hg as [X|(_&NE&_)]; [discriminate X|]. destruct subs; [congruence|discriminate B]. }
    apply orb_false_iff in B. destruct B as [B ->].
    destruct Hg as [X|(->&NE&Gs&Cs)]; [discriminate X|]. rewrite fold_all in Gs.
    assert (FG : Forall (G H) subs) by (rewrite Forall_forall in *; intros s Hs; split; auto).
    assert (Ll : length subs - 1 < length subs) by (destruct subs; [congruence|cbn; lia]).
    assert (MIN : forall k, I subs k -> upto c k).
    { intros k Hk. destruct subs as [|s0 r]; [congruence|]. inversion Hk; subst. inversion Gs as [|? ? g0 _]; subst. inversion Cs as [|? ? c0 _]; subst.
      pose proof (cur_least s0 g0) as L. rewrite c0 in L. apply L. assumption. }
    assert (GO : forall o', (match o' with Next => True | Adv t => below c t end) -> o' = o ->
      exists e, (let* subs' := at_pos sub o' (length subs - 1) subs in and_find sub c subs') = Some e /\ node_ok H U (keeps o (And false false c subs)) e).
    { intros o' Ho' ->. destruct (at_pos_ok sub H Hstep U o (length subs - 1) subs FG Ll FU) as (s&s'&Es&Ea&Gs0&D&Gs'&Us'). rewrite Ea.
      destruct (and_find_ok sub H Hstep U c (upd (length subs - 1) s' subs)) as (e&Ee&(N1&N2&N3&N4)).
      - apply Forall_upd; assumption.
      - apply Forall_upd; assumption.
      - intros X. apply (f_equal (@length _)) in X. rewrite upd_length in X. cbn in X. destruct subs; [congruence|discriminate X].
      - exists e. split; [exact Ee|]. split; [exact N1|]. split; [exact N2|]. split; [|exact N4].
        intros k. rewrite N3. unfold keeps. cbn [rem current_id]. rewrite fold_all. rewrite (I_upd _ s s' subs k Es).
        destruct D as (_&_&D). rewrite D. unfold keeps.
        assert (Cs0 : current_id s = Some c) by (rewrite Forall_forall in Cs; apply Cs; eapply nth_error_In; eauto). rewrite Cs0.
        pose proof (I_at (length subs - 1) s subs k Es) as IA. unfold I in IA. rewrite IA. destruct o; tauto. }
    destruct o as [|t]; [apply GO; auto|]. destruct (bleb t c) eqn:T.
    - apply bleb_upto in T. eexists. split; [reflexivity|]. split; [cbn; right; rewrite fold_all; auto|]. split; [cbn; apply inU_flat; exact FU|]. split; [|exact FH].
      intros k. unfold keeps. split; [|tauto]. intros X. split; [exact X|]. cbn [rem] in X. destruct X as [_ X]. rewrite fold_all in X. pose proof (MIN k X). korder.
    - apply bleb_below in T. apply GO; auto.
  Qed.

  (* -- OR -- *)
  Lemma J_at i s subs k : nth_error subs i = Some s -> J subs k <-> (exists j t, j <> i /\ nth_error subs j = Some t /\ rem t k) \/ rem s k.
  Proof.
    intros E. unfold J. rewrite Exists_exists. split.
    - intros (x&Hx&R). apply In_nth_error in Hx. destruct Hx as [j Hx]. destruct (Nat.eq_dec j i) as [->|Nj]; [right; congruence|left; eauto].
    - intros [(j&t&_&Ej&R)|R]; [exists t|exists s]; split; eauto using nth_error_In.
  Qed.
  Lemma J_upd i s s' subs k : nth_error subs i = Some s -> J (upd i s' subs) k <-> (exists j t, j <> i /\ nth_error subs j = Some t /\ rem t k) \/ rem s' k.
  Proof.
    intros E. assert (L : i < length subs) by (apply nth_error_Some; congruence).
    rewrite (J_at i s' (upd i s' subs) k) by (rewrite nth_upd, Nat.eqb_refl by exact L; reflexivity).
    assert (X : (exists j t, j <> i /\ nth_error (upd i s' subs) j = Some t /\ rem t k) <-> (exists j t, j <> i /\ nth_error subs j = Some t /\ rem t k)).
    { split; intros (j&t&Nj&Ej&R); exists j, t; (split; [exact Nj|]); rewrite nth_upd in * by exact L; destruct (Nat.eqb_spec j i); try congruence; auto. }
    rewrite X. reflexivity.
  Qed.
  Lemma J_perm l l' k : Permutation l l' -> J l k <-> J l' k.
  Proof. intros P. unfold J. rewrite !Exists_exists. split; intros (x&Hx&R); exists x; (split; [|exact R]); [apply (Permutation_in x P Hx)|apply (Permutation_in x (Permutation_sym P) Hx)]. Qed.
  Lemma Forall_Perm {A} (Q : A -> Prop) l l' : Permutation l l' -> Forall Q l -> Forall Q l'.
  Proof. intros P F. rewrite Forall_forall in *. intros x Hx. apply F. eapply Permutation_in; [symmetry; exact P|exact Hx]. Qed.

  (* replacing a clause by one further on, and restoring the heap *)
  Lemma bump i s s' subs : is_heap before subs -> nth_error subs i = Some s -> ole (current_id s) (current_id s') ->
    is_heap before (or_shiftdown i (upd i s' subs)) /\ Permutation (upd i s' subs) (or_shiftdown i (upd i s' subs)).
  Proof.
    intros Hh E O. assert (L : i < length subs) by (apply nth_error_Some; congruence). unfold or_shiftdown.
    apply (shiftdown_ok before (fun _ => True) before_asym before_trans (length (upd i s' subs)) 0 i (upd i s' subs)); [apply all_true|lia|lia|].
    assert (ORD : forall a b x y, nth_error subs a = Some x -> nth_error subs b = Some y -> ord before subs a b -> ole (current_id x) (current_id y)).
    { intros a b x y Ea Eb Ho. rewrite (ord_at before subs a b x y Ea Eb) in Ho. apply le_ole. exact Ho. }
    assert (GET : forall a b, (forall x y, nth_error (upd i s' subs) a = Some x -> nth_error (upd i s' subs) b = Some y -> ole (current_id x) (current_id y)) -> ord before (upd i s' subs) a b).
    { intros a b Hab. destruct (nth_error (upd i s' subs) a) as [x|] eqn:Ea; [|apply ord_out1; apply nth_error_None; exact Ea].
      destruct (nth_error (upd i s' subs) b) as [y|] eqn:Eb; [|apply ord_out; apply nth_error_None; exact Eb].
      rewrite (ord_at before _ a b x y Ea Eb). apply le_ole. auto. }
    split.
    - intros j Hj _ Np. apply GET. intros x y. rewrite !nth_upd by exact L. pose proof (parent_lt j Hj).
      destruct (Nat.eqb_spec (parent j) i); [congruence|]. intros Ex. destruct (Nat.eqb_spec j i) as [->|Nj].
      + intros [= <-]. eapply ole_trans; [|exact O]. eapply ORD; eauto. apply Hh; [exact Hj|lia].
      + intros Ey. eapply ORD; eauto. apply Hh; [exact Hj|lia].
    - intros c Hc Pc Hi _. apply GET. intros x y. rewrite !nth_upd by exact L. pose proof (parent_lt i Hi). pose proof (parent_lt c Hc).
      destruct (Nat.eqb_spec (parent i) i); [lia|]. destruct (Nat.eqb_spec c i); [lia|]. intros Ex Ey.
      apply (ole_trans _ (current_id s)); [eapply ORD; eauto; apply Hh; [exact Hi|lia]|].
      apply (ORD i c s y E Ey). rewrite <- Pc. apply Hh; [exact Hc|lia].
  Qed.

  Lemma shiftdown_before fuel : forall i (l : list exec) j, j < i -> nth_error (shiftdown before fuel i l) j = nth_error l j.
  Proof.
    induction fuel as [|f IH]; intros i l j L; [reflexivity|]. cbn [shiftdown].
    destruct (Nat.leb_spec (length l) (i * 2 + 1)) as [X|X]; [reflexivity|].
    set (m1 := if before_at before l (i * 2 + 1) i then i * 2 + 1 else i).
    set (m2 := if before_at before l (S (i * 2 + 1)) m1 then S (i * 2 + 1) else m1).
    assert (M : (m2 = i \/ m2 = i * 2 + 1 \/ m2 = S (i * 2 + 1)) /\ m2 < length l).
    { unfold m2, m1. destruct (before_at before l (i * 2 + 1) i) eqn:B1.
      - destruct (before_at before l (S (i * 2 + 1)) (i * 2 + 1)) eqn:B2; [pose proof (before_lt _ _ _ _ B2)|]; lia.
      - destruct (before_at before l (S (i * 2 + 1)) i) eqn:B2; [pose proof (before_lt _ _ _ _ B2)|]; lia. }
    destruct (Nat.eqb_spec m2 i) as [E|E]; [reflexivity|]. rewrite IH by lia. rewrite nth_swap by lia.
    f_equal. unfold flip. destruct (Nat.eqb_spec j m2); [lia|]. destruct (Nat.eqb_spec j i); lia.
  Qed.

  Definition is_at (c : key) (s : exec) : bool := match current_id s with Some c' => beqb c' c | None => false end.
  Lemma is_at_iff c s : is_at c s = true <-> current_id s = Some c.
  Proof. unfold is_at. destruct (current_id s) as [c'|]; [rewrite beqb_eq|]; split; congruence. Qed.
  Definition count (c : key) (l : list exec) : nat := length (filter (is_at c) l).
  Lemma count_perm c l l' : Permutation l l' -> count c l = count c l'.
  Proof.
    intros P. unfold count. induction P; cbn; auto; try lia.
    - destruct (is_at c x); cbn; lia.
    - destruct (is_at c x), (is_at c y); reflexivity.
  Qed.
  Lemma count_app c a b : count c (a ++ b) = count c a + count c b.
  Proof. unfold count. induction a as [|x a IH]; cbn; [reflexivity|]. destruct (is_at c x); cbn; lia. Qed.
  Lemma count_len c l : count c l <= length l.
  Proof. unfold count. induction l as [|x l IH]; cbn; [lia|]. destruct (is_at c x); cbn; lia. Qed.
  Lemma count_upd c i s s' l : nth_error l i = Some s -> current_id s = Some c -> current_id s' <> Some c -> S (count c (upd i s' l)) = count c l.
  Proof.
    intros E C N. destruct (upd_split i s' s l E) as (a&b&->&_&->). rewrite !count_app. unfold count. cbn [filter].
    rewrite (proj2 (is_at_iff c s) C). destruct (is_at c s') eqn:X; [apply is_at_iff in X; congruence|]. cbn. lia.
  Qed.

  Lemma or_skip_ok c i : 0 < i -> forall rounds subs s0,
    Forall (G H) subs -> Forall (inU U) subs -> is_heap before subs -> i < length subs ->
    nth_error subs 0 = Some s0 -> current_id s0 = Some c -> count c subs <= rounds ->
    exists subs', or_skip sub rounds c i subs = Some subs' /\ Forall (G H) subs' /\ Forall (inU U) subs' /\ is_heap before subs' /\
      length subs' = length subs /\ (forall j, j < i -> nth_error subs' j = nth_error subs j) /\
      (forall s, nth_error subs' i = Some s -> current_id s <> Some c) /\ forall k, J subs' k <-> J subs k.
  Proof.
    intros Hi. induction rounds as [|r IH]; intros subs s0 F FU Hh Li E0 C0 Ct.
    { exfalso. destruct subs as [|x l]; [discriminate|]. injection E0 as ->. unfold count in Ct. cbn in Ct. rewrite (proj2 (is_at_iff c s0) C0) in Ct. cbn in Ct. lia. }
    cbn [or_skip]. destruct (nth_error subs i) as [s|] eqn:Es; [|apply nth_error_None in Es; lia].
    destruct (current_id s) as [c'|] eqn:Cs.
    2:{ exists subs. split; [reflexivity|]. do 5 (split; [auto|]). split; [|reflexivity]. intros t Et. congruence. }
    destruct (beqb c' c) eqn:B.
    2:{ exists subs. split; [reflexivity|]. do 5 (split; [auto|]). split; [|reflexivity]. intros t Et X. assert (t = s) by congruence. subst t.
        assert (c' = c) by congruence. subst c'. rewrite (proj2 (beqb_eq c c) eq_refl) in B. discriminate. }
    apply beqb_eq in B. subst c'.
    destruct (at_pos_ok sub H Hstep U Next i subs F Li FU) as (s1&s'&Es1&Ea&Gs&D&Gs'&Us'). assert (s1 = s) by congruence. subst s1. rewrite Ea.
    destruct (bump i s s' subs Hh Es (does_up Next s s' (proj1 Gs) D)) as [Hh' P].
    set (subs1 := or_shiftdown i (upd i s' subs)) in *.
    assert (PRE : forall j, j < i -> nth_error subs1 j = nth_error subs j).
    { intros j Lj. unfold subs1, or_shiftdown. rewrite shiftdown_before by exact Lj. rewrite nth_upd by exact Li. destruct (Nat.eqb_spec j i); [lia|reflexivity]. }
    assert (Ll : length subs1 = length subs) by (rewrite <- (Permutation_length P); apply upd_length).
    destruct (IH subs1 s0) as (subs2&X1&X2&X3&X4&X5&X6&X7&X8).
    - eapply Forall_Perm; [exact P|]. apply Forall_upd; assumption.
    - eapply Forall_Perm; [exact P|]. apply Forall_upd; assumption.
    - exact Hh'.
    - lia.
    - rewrite PRE by exact Hi. exact E0.
    - exact C0.
    - rewrite <- (count_perm c _ _ P). pose proof (count_upd c i s s' subs Es Cs (next_leaves s s' c (proj1 Gs) D Cs)). lia.
    - exists subs2. split; [exact X1|]. split; [exact X2|]. split; [exact X3|]. split; [exact X4|]. split; [lia|]. split; [|split; [exact X7|]].
      + intros j Lj. rewrite X6 by exact Lj. apply PRE. exact Lj.
      + intros k. rewrite X8. rewrite <- (J_perm _ _ k P). rewrite (J_upd i s s' subs k Es), (J_at i s subs k Es).
        destruct D as (_&_&D). rewrite D. unfold keeps. split; [tauto|]. intros [X|X]; [left; exact X|].
        destruct (list_eq_dec Z.eq_dec k c) as [->|Nk]; [|right; split; [exact X|congruence]].
        left. exists 0, s0. split; [lia|]. split; [exact E0|]. rewrite Forall_forall in F. pose proof (cur_least s0 (proj1 (F s0 (nth_error_In _ _ E0)))) as L.
        rewrite C0 in L. apply L.
  Qed.

  Lemma or_null init c subs (R : key -> Prop) : Forall H subs -> Forall (inU U) subs -> (forall k, ~ R k) -> node_ok H U R (Or init true c subs).
  Proof.
    intros F FU N. split; [cbn; tauto|]. split; [cbn; apply inU_flat; exact FU|]. split; [|exact F].
    intros k. cbn. split; [intros [X _]; discriminate X|]. intros X. destruct (N k X).
  Qed.

  Lemma or_find_ok c subs : Forall (G H) subs -> Forall (inU U) subs -> subs <> [] -> is_heap before subs ->
    exists e, or_find sub c subs = Some e /\ node_ok H U (J subs) e.
  Proof.
    intros F FU NE Hh. unfold or_find. destruct subs as [|s0 r] eqn:ES; [congruence|]. cbn [nth_error]. rewrite <- ES in *.
    assert (E0 : nth_error subs 0 = Some s0) by (rewrite ES; reflexivity).
    assert (Lp : 0 < length subs) by (rewrite ES; cbn; lia). clear ES NE.
    destruct (current_id s0) as [c'|] eqn:C0.
    2:{ eexists. split; [reflexivity|]. apply or_null; [apply G_H; exact F|exact FU|]. intros k Hk. unfold J in Hk. apply Exists_exists in Hk.
        destruct Hk as (s&Hs&Rk). rewrite Forall_forall in F. pose proof (cur_least s (proj1 (F s Hs))) as L.
        apply In_nth_error in Hs. destruct Hs as [j Ej]. pose proof (heap_min subs s0 j s Hh E0 Ej) as O. rewrite C0 in O.
        destruct (current_id s); [destruct O|]. apply (L k Rk). }
    (* position 1 *)
    assert (S1 : exists s1, (if 1 <? length subs then or_skip sub (length subs) c' 1 subs else Some subs) = Some s1 /\
      Forall (G H) s1 /\ Forall (inU U) s1 /\ is_heap before s1 /\ length s1 = length subs /\ nth_error s1 0 = Some s0 /\
      (forall s, nth_error s1 1 = Some s -> current_id s <> Some c') /\ forall k, J s1 k <-> J subs k).
    { destruct (Nat.ltb_spec 1 (length subs)) as [L|L].
      - destruct (or_skip_ok c' 1 ltac:(lia) (length subs) subs s0 F FU Hh L E0 C0 (count_len _ _)) as (s1&X1&X2&X3&X4&X5&X6&X7&X8).
        exists s1. repeat (split; [assumption|]). split; [rewrite X6 by lia; exact E0|]. split; assumption.
      - exists subs. split; [reflexivity|]. repeat (split; [assumption|]). split; [reflexivity|]. split; [exact E0|]. split; [|reflexivity].
        intros s Es. assert (1 < length subs) by (apply nth_error_Some; congruence). lia. }
    destruct S1 as (s1&Q1&F1&FU1&Hh1&L1&E1&N1&J1). rewrite Q1. clear Q1.
    assert (S2 : exists s2, (if 2 <? length s1 then or_skip sub (length s1) c' 2 s1 else Some s1) = Some s2 /\
      Forall (G H) s2 /\ Forall (inU U) s2 /\ is_heap before s2 /\ length s2 = length subs /\ nth_error s2 0 = Some s0 /\
      (forall s, nth_error s2 1 = Some s -> current_id s <> Some c') /\ (forall s, nth_error s2 2 = Some s -> current_id s <> Some c') /\ forall k, J s2 k <-> J subs k).
    { destruct (Nat.ltb_spec 2 (length s1)) as [L|L].
      - destruct (or_skip_ok c' 2 ltac:(lia) (length s1) s1 s0 F1 FU1 Hh1 L E1 C0 (count_len _ _)) as (s2&X1&X2&X3&X4&X5&X6&X7&X8).
        exists s2. split; [assumption|]. split; [assumption|]. split; [assumption|]. split; [assumption|]. split; [congruence|].
        split; [rewrite X6 by lia; exact E1|]. split; [rewrite X6 by lia; exact N1|]. split; [assumption|]. intros k. rewrite X8. apply J1.
      - exists s1. split; [reflexivity|]. repeat (split; [assumption|]). split; [|exact J1].
        intros s Es. assert (2 < length s1) by (apply nth_error_Some; congruence). lia. }
    destruct S2 as (s2&Q2&F2&FU2&Hh2&L2&E2&N2&N3&J2). rewrite Q2. clear Q2.
    eexists. split; [reflexivity|]. split; [|split; [apply inU_flat; exact FU2|split; [|apply G_H; exact F2]]].
    - cbn. right. split; [reflexivity|]. split; [exact Hh2|]. rewrite fold_all. split; [eapply G_good; eauto|]. split; [exists s0; auto|].
      assert (OUT : forall j s, 0 < j -> nth_error s2 j = Some s -> match current_id s with Some x => below c' x | None => True end).
      { intros j. induction j as [j IH] using lt_wf_ind. intros s Hj Es.
        pose proof (heap_min s2 s0 j s Hh2 E2 Es) as O. rewrite C0 in O. destruct (current_id s) as [x|] eqn:Cx; [|exact Logic.I].
        assert (CASE : j = 1 \/ j = 2 \/ 2 < j) by lia. destruct CASE as [-> |[-> |Hj2]].
        - cbn in O. apply upto_cases in O. destruct O as [O|O]; [exact O|]. subst x. destruct (N2 s Es Cx).
        - cbn in O. apply upto_cases in O. destruct O as [O|O]; [exact O|]. subst x. destruct (N3 s Es Cx).
        - pose proof (parent_lt j Hj) as Pj.
          assert (Pp : 0 < parent j) by (unfold parent; pose proof (Nat.div_mod (j - 1) 2 ltac:(lia)); pose proof (Nat.mod_upper_bound (j - 1) 2 ltac:(lia)); lia).
          assert (Lj : j < length s2) by (apply nth_error_Some; congruence).
          destruct (nth_error s2 (parent j)) as [sp|] eqn:Ep; [|apply nth_error_None in Ep; lia].
          pose proof (IH (parent j) Pj sp Pp Ep) as B. pose proof (Hh2 j Hj ltac:(lia)) as Oj. rewrite (ord_at before s2 _ _ sp s Ep Es) in Oj. apply le_ole in Oj. rewrite Cx in Oj.
          destruct (current_id sp) as [y|]; cbn in Oj; [korder|destruct Oj]. }
      intros j s x Hj Es Cx. pose proof (OUT j s Hj Es) as B. rewrite Cx in B. exact B.
    - intros k. cbn. rewrite fold_any. rewrite <- (J2 k). unfold J. tauto.
  Qed.

  Lemma or_first c subs : Forall fresh subs -> Forall H subs -> Forall (inU U) subs ->
    exists e, or_step sub Next true false c subs = Some e /\ node_ok H U (docs (Or true false c subs)) e.
  Proof.
    intros F FH FU. unfold or_step. destruct subs as [|s0 r].
    - eexists. split; [reflexivity|]. apply or_null; [constructor|constructor|]. intros k [].
    - cbn [orb]. destruct (each_ok (s0 :: r) F FH FU) as (subs'&E&X1&X2&X3&X4). rewrite E.
      destruct (make_heap_ok before (fun _ => True) before_asym before_trans subs' (all_true _)) as [Hh P].
      unfold or_make_heap. set (l := make_heap before subs') in *.
      destruct (or_find_ok c l) as (e&Ee&(N1&N2&N3&N4)).
      + eapply Forall_Perm; eauto.
      + eapply Forall_Perm; eauto.
      + intros X. rewrite X in P. apply Permutation_sym, Permutation_nil in P. subst subs'. discriminate X3.
      + exact Hh.
      + exists e. split; [exact Ee|]. split; [exact N1|]. split; [exact N2|]. split; [|exact N4].
        intros k. rewrite N3, <- (J_perm _ _ k P), X4. cbn [docs]. rewrite fold_any. reflexivity.
  Qed.

  Definition lowc (t : key) (s : exec) : bool := match current_id s with Some c => bltb c t | None => false end.
  Lemma lowc_upd t i s s' l : nth_error l i = Some s -> lowc t s = true -> lowc t s' = false ->
    S (length (filter (lowc t) (upd i s' l))) = length (filter (lowc t) l).
  Proof.
    intros E A B. destruct (upd_split i s' s l E) as (a&b&->&_&->). rewrite !filter_app, !app_length. cbn [filter]. rewrite A, B. cbn. lia.
  Qed.
  Lemma filter_perm_len {A} (f : A -> bool) l l' : Permutation l l' -> length (filter f l) = length (filter f l').
  Proof.
    intros P. induction P; cbn; auto; try lia.
    - destruct (f x); cbn; lia.
    - destruct (f x), (f y); reflexivity.
  Qed.

  Lemma or_adv_ok t rounds : forall subs, Forall (G H) subs -> Forall (inU U) subs -> is_heap before subs -> subs <> [] ->
    length (filter (lowc t) subs) < rounds ->
    exists subs', or_adv sub rounds t subs = Some subs' /\ Forall (G H) subs' /\ Forall (inU U) subs' /\ is_heap before subs' /\ subs' <> [] /\
      forall k, J subs' k <-> J subs k /\ upto t k.
  Proof.
    induction rounds as [|r IH]; intros subs F FU Hh NE R; [lia|]. cbn [or_adv].
    destruct (nth_error subs 0) as [s|] eqn:E0; [|destruct subs; [congruence|discriminate]].
    assert (STOP : match current_id s with Some c => upto t c | None => True end ->
      exists subs', Some subs = Some subs' /\ Forall (G H) subs' /\ Forall (inU U) subs' /\ is_heap before subs' /\ subs' <> [] /\
      forall k, J subs' k <-> J subs k /\ upto t k).
    { intros St. exists subs. split; [reflexivity|]. repeat (split; [assumption|]). intros k. split; [|tauto]. intros Hk. split; [exact Hk|].
      unfold J in Hk. apply Exists_exists in Hk. destruct Hk as (x&Hx&Rk). rewrite Forall_forall in F. pose proof (cur_least x (proj1 (F x Hx))) as L.
      apply In_nth_error in Hx. destruct Hx as [j Ej]. pose proof (heap_min subs s j x Hh E0 Ej) as O.
      destruct (current_id x) as [cx|]; [|destruct (L k Rk)]. destruct L as [_ L]. specialize (L k Rk). destruct (current_id s) as [cs|]; [|destruct O]. cbn in O. korder. }
    destruct (current_id s) as [c|] eqn:Cs; [|apply STOP; exact Logic.I]. destruct (bltb c t) eqn:B; [|apply STOP; apply bltb_upto; exact B].
    clear STOP. apply bltb_below in B. assert (L0 : 0 < length subs) by (destruct subs; [congruence|cbn; lia]).
    destruct (at_pos_ok sub H Hstep U (Adv t) 0 subs F L0 FU) as (s1&s'&Es1&Ea&Gs&D&Gs'&Us'). assert (s1 = s) by congruence. subst s1. rewrite Ea.
    destruct (bump 0 s s' subs Hh E0 (does_up _ s s' (proj1 Gs) D)) as [Hh' P]. set (subs1 := or_shiftdown 0 (upd 0 s' subs)) in *.
    assert (Low : lowc t s' = false).
    { unfold lowc. pose proof (cur_least s' (proj1 Gs')) as L. destruct (current_id s') as [x|]; [|reflexivity]. destruct L as [L _]. apply D in L. destruct L as [_ L]. apply bltb_upto. exact L. }
    destruct (IH subs1) as (subs2&X1&X2&X3&X4&X5&X6).
    - eapply Forall_Perm; [exact P|]. apply Forall_upd; assumption.
    - eapply Forall_Perm; [exact P|]. apply Forall_upd; assumption.
    - exact Hh'.
    - intros X. apply (f_equal (@length _)) in X. rewrite <- (Permutation_length P), upd_length in X. cbn in X. lia.
    - rewrite <- (filter_perm_len _ _ _ P). assert (lowc t s = true) by (unfold lowc; rewrite Cs; apply bltb_below; exact B).
      pose proof (lowc_upd t 0 s s' subs E0 H0 Low). lia.
    - exists subs2. split; [exact X1|]. split; [exact X2|]. split; [exact X3|]. split; [exact X4|]. split; [exact X5|].
      intros k. rewrite X6. rewrite <- (J_perm _ _ k P). rewrite (J_upd 0 s s' subs k E0), (J_at 0 s subs k E0). destruct D as (_&_&D). rewrite D. unfold keeps. tauto.
  Qed.

  Lemma or_again o init null c subs : good (Or init null c subs) -> Forall H subs -> Forall (inU U) subs ->
    exists e, or_step sub o init null c subs = Some e /\ node_ok H U (keeps o (Or init null c subs)) e.
  Proof.
    intros Hg FH FU. unfold or_step.
    destruct (match subs with [] => true | _ => false end || null) eqn:B.
    { eexists. split; [reflexivity|]. apply or_null; [exact FH|exact FU|]. intros k [[X Y] Z]. subst null. rewrite orb_false_r in B.
      destruct subs; [exact Y|discriminate B]. }
    apply orb_false_iff in B. destruct B as [B ->].
    pose proof (cur_least _ Hg) as ML. cbn [current_id] in ML.
    destruct Hg as [X|(->&Hh&Gs&(s0&E0&C0)&Oth)]; [discriminate X|]. rewrite fold_all in Gs.
    assert (FG : Forall (G H) subs) by (rewrite Forall_forall in *; intros s Hs; split; auto).
    assert (NE : subs <> []) by (intros ->; discriminate B).
    assert (L0 : 0 < length subs) by (destruct subs; [congruence|cbn; lia]).
    destruct o as [|t].
    - destruct (at_pos_ok sub H Hstep U Next 0 subs FG L0 FU) as (s1&s'&Es1&Ea&Gs0&D&Gs'&Us'). assert (s1 = s0) by congruence. subst s1. rewrite Ea.
      destruct (bump 0 s0 s' subs Hh E0 (does_up _ s0 s' (proj1 Gs0) D)) as [Hh' P].
      destruct (or_find_ok c (or_shiftdown 0 (upd 0 s' subs))) as (e&Ee&(N1&N2&N3&N4)).
      + eapply Forall_Perm; [exact P|]. apply Forall_upd; assumption.
      + eapply Forall_Perm; [exact P|]. apply Forall_upd; assumption.
      + intros X. apply (f_equal (@length _)) in X. rewrite <- (Permutation_length P), upd_length in X. cbn in X. lia.
      + exact Hh'.
      + exists e. split; [exact Ee|]. split; [exact N1|]. split; [exact N2|]. split; [|exact N4].
        intros k. rewrite N3. rewrite <- (J_perm _ _ k P). rewrite (J_upd 0 s0 s' subs k E0). unfold keeps. cbn [rem current_id]. rewrite fold_any.
        pose proof (J_at 0 s0 subs k E0) as JA. unfold J in JA. rewrite JA. destruct D as (_&_&D). rewrite D. unfold keeps. rewrite C0.
        split.
        * intros [(j&s&Nj&Ej&R)|[R X]]; (split; [split; [reflexivity|]|]).
          -- left. eauto.
          -- intros [= <-]. rewrite Forall_forall in Gs. pose proof (cur_least s (Gs s (nth_error_In _ _ Ej))) as L.
             destruct (current_id s) as [x|] eqn:Cx; [|apply (L c R)]. destruct L as [_ L]. specialize (L c R). pose proof (Oth j s x ltac:(lia) Ej Cx). korder.
          -- right. exact R.
          -- exact X.
        * intros [[_ [X|X]] Y]; [left; exact X|right; split; [exact X|exact Y]].
    - cbn [negb andb]. destruct (bleb t c) eqn:T.
      + apply bleb_upto in T. eexists. split; [reflexivity|]. split; [cbn; right; rewrite fold_all; split; [reflexivity|]; split; [exact Hh|]; split; [exact Gs|]; split; [eauto|exact Oth]|].
        split; [cbn; apply inU_flat; exact FU|]. split; [|exact FH].
        intros k. unfold keeps. split; [|tauto]. intros X. split; [exact X|]. destruct ML as [_ ML]. specialize (ML k X). korder.
      + apply bleb_below in T. destruct (or_adv_ok t (S (length subs)) subs FG FU Hh NE) as (subs'&X1&X2&X3&X4&X5&X6).
        { assert (length (filter (lowc t) subs) <= length subs); [|lia]. clear. induction subs as [|x l IH]; cbn; [lia|]. destruct (lowc t x); cbn; lia. }
        rewrite X1. destruct (or_find_ok c subs' X2 X3 X5 X4) as (e&Ee&(N1&N2&N3&N4)). exists e. split; [exact Ee|]. split; [exact N1|]. split; [exact N2|]. split; [|exact N4].
        intros k. rewrite N3, X6. unfold keeps. cbn [rem]. rewrite fold_any. unfold J. tauto.
  Qed.
End Nodes.

(* ---- the whole tree ---- *)
Lemma height_sub d l : fold_right (fun s m => Nat.max (height s) m) 0 l <= d <-> Forall (fun s => height s <= d) l.
Proof.
  induction l as [|x l IH]; cbn; [split; [constructor|lia]|]. split.
  - intros X. constructor; [lia|]. apply IH. lia.
  - intros X. inversion X; subst. apply IH in H2. lia.
Qed.

Lemma step_ok d :
  (forall o e, good e /\ height e <= d -> exists e', step d o e = Some e' /\ does o e e' /\ height e' <= d) /\
  (forall e, fresh e -> height e <= d -> exists e', step d Next e = Some e' /\ starts e e' /\ height e' <= d).
Proof.
  induction d as [|d [IH1 IH2]].
  { split; [intros o e [_ L]|intros e _ L]; destruct e; cbn in L; lia. }
  assert (NODE : forall U R e, node_ok (fun s => height s <= d) U R e -> height e <= S d).
  { intros U R e (_&_&_&X). destruct e; [destruct X| |]; cbn [height]; apply height_sub in X; lia. }
  split.
  - intros o e [Ge Le]. destruct e as [i p c|i n c subs|i n c subs]; cbn [step].
    + pose proof Ge as Ge'. destruct Ge' as (-> & _). destruct (term_step o p c Ge) as (e'&E&D). exists e'. split; [exact E|]. split; [exact D|].
      destruct o; [|unfold term_advance in E].
      * clear -E. revert E. generalize (term_rounds p). generalize false. intros b r. revert b p. induction r as [|r IH]; intros b p E; [discriminate|]. cbn [term_next] in E.
        destruct (if b then Some p else p_next p) as [q|]; [|discriminate]. destruct (pcur q) as [m|]; [|injection E as <-; cbn; lia].
        destruct (ndel m); [eapply IH; eauto|injection E as <-; cbn; lia].
      * assert (TN : forall r b p e', term_next r b p = Some e' -> height e' <= S d).
        { clear. induction r as [|r IH]; intros b p e' E; [discriminate|]. cbn [term_next] in E.
          destruct (if b then Some p else p_next p) as [q|]; [|discriminate]. destruct (pcur q) as [m|]; [|injection E as <-; cbn; lia].
          destruct (ndel m); [eapply IH; eauto|injection E as <-; cbn; lia]. }
        destruct c as [m|]; [|injection E as <-; cbn; lia]. destruct (bleb target (nkey m)); [injection E as <-; cbn; lia|].
        destruct (p_advance p target) as [q|]; [|discriminate]. destruct (pcur q) as [m'|]; [|injection E as <-; cbn; lia].
        destruct (ndel m'); [eapply TN; eauto|injection E as <-; cbn; lia].
    + cbn [height] in Le. assert (Hs : Forall (fun s => height s <= d) subs) by (apply height_sub; lia).
      destruct (and_again (step d) (fun s => height s <= d) IH1 IH2 (flat_map univ subs) o i n c subs Ge Hs (in_flat_U _ _ (incl_refl _))) as (e'&E&N).
      exists e'. split; [exact E|]. split; [|eapply NODE; eauto]. destruct N as (N1&N2&N3&_). split; [exact N1|]. split; [exact N2|exact N3].
    + cbn [height] in Le. assert (Hs : Forall (fun s => height s <= d) subs) by (apply height_sub; lia).
      destruct (or_again (step d) (fun s => height s <= d) IH1 IH2 (flat_map univ subs) o i n c subs Ge Hs (in_flat_U _ _ (incl_refl _))) as (e'&E&N).
      exists e'. split; [exact E|]. split; [|eapply NODE; eauto]. destruct N as (N1&N2&N3&_). split; [exact N1|]. split; [exact N2|exact N3].
  - intros e Fe Le. destruct e as [i p c|i n c subs|i n c subs]; cbn [step].
    + destruct Fe as (->&->&Ok&B). destruct (term_next_first (term_rounds p) p Ok B) as (e'&E&St).
      { unfold term_rounds, keys_of. rewrite app_length, !map_length. lia. }
      exists e'. split; [exact E|]. split; [exact St|].
      clear -E. revert E. generalize (term_rounds p). generalize true. intros b r. revert b p. induction r as [|r IH]; intros b p E; [discriminate|]. cbn [term_next] in E.
      destruct (if b then Some p else p_next p) as [q|]; [|discriminate]. destruct (pcur q) as [m|]; [|injection E as <-; cbn; lia].
      destruct (ndel m); [eapply IH; eauto|injection E as <-; cbn; lia].
    + destruct Fe as (->&->&F). rewrite fold_all in F. cbn [height] in Le. assert (Hs : Forall (fun s => height s <= d) subs) by (apply height_sub; lia).
      destruct (and_first (step d) (fun s => height s <= d) IH1 IH2 (flat_map univ subs) c subs F Hs (in_flat_U _ _ (incl_refl _))) as (e'&E&N).
      exists e'. split; [exact E|]. split; [|eapply NODE; eauto]. destruct N as (N1&N2&N3&_). split; [exact N1|]. split; [exact N2|exact N3].
    + destruct Fe as (->&->&F). rewrite fold_all in F. cbn [height] in Le. assert (Hs : Forall (fun s => height s <= d) subs) by (apply height_sub; lia).
      destruct (or_first (step d) (fun s => height s <= d) IH1 IH2 (flat_map univ subs) c subs F Hs (in_flat_U _ _ (incl_refl _))) as (e'&E&N).
      exists e'. split; [exact E|]. split; [|eapply NODE; eauto]. destruct N as (N1&N2&N3&_). split; [exact N1|]. split; [exact N2|exact N3].
Qed.

Lemma call_ok o e : good e -> exists e', call o e = Some e' /\ does o e e'.
Proof. intros Ge. destruct (proj1 (step_ok (height e)) o e) as (e'&E&D&_); [split; [exact Ge|lia]|]. exists e'. split; assumption. Qed.
Lemma call_first e : fresh e -> exists e', call Next e = Some e' /\ starts e e'.
Proof. intros Fe. destruct (proj2 (step_ok (height e)) e Fe) as (e'&E&D&_); [lia|]. exists e'. split; assumption. Qed.
