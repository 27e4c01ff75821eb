(* The iterators over the levels give sorted lists of nodes, and level_merge merges them. *)
From Coq Require Import ZArith List Bool Lia Sorted PeanoNat.
From Verif Require Import Common.Bytes Common.KV Rev.Model Rev.Spec Rev.Order Rev.LevelModel.
Import ListNotations.
Local Open Scope nat_scope.

Definition inside (rg : key * key) (n : node) : bool := negb (outside rg (nkey n)).

Lemma inside_in rg n : inside rg n = true <-> in_range (fst rg) (snd rg) (nkey n).
Proof.
  unfold inside, outside, in_range. destruct rg as [a b]. cbn [fst snd]. rewrite negb_true_iff, orb_false_iff, !andb_false_iff, !negb_false_iff.
  rewrite bltb_upto, bleb_below. destruct a, b; split; intros [X Y]; split; try (left; reflexivity); try (right; tauto); try tauto.
  all: destruct X as [X|X]; try discriminate X; auto; destruct Y as [Y|Y]; try discriminate Y; auto.
Qed.

(* ---- merging ---- *)
Fixpoint yields (i : level_it) (l : list node) (fin : level_it -> Prop) : Prop :=
  match l with
  | [] => exists i', it_next i = Some (i', None) /\ fin i'
  | n :: r => exists i', it_next i = Some (i', Some n) /\ yields i' r fin
  end.

Fixpoint mrg (la lb : list node) : list node :=
  match la with
  | [] => lb
  | x :: ra =>
      (fix aux lb := match lb with
       | [] => la
       | y :: rb => match bcompare (nkey x) (nkey y) with
                    | Lt => x :: mrg ra lb
                    | Gt => y :: aux rb
                    | Eq => x :: mrg ra rb
                    end
       end) lb
  end.
Lemma mrg_eq x ra y rb : mrg (x :: ra) (y :: rb) =
  match bcompare (nkey x) (nkey y) with Lt => x :: mrg ra (y :: rb) | Gt => y :: mrg (x :: ra) rb | Eq => x :: mrg ra rb end.
Proof. reflexivity. Qed.
Lemma mrg_nil_r la : mrg la [] = la.
Proof. destruct la; reflexivity. Qed.

Definition keep (d : bool) (l : list node) : list node := filter (fun n => negb (d && ndel n)) l.

Definition standing (i : level_it) (n : option node) (l : list node) (fin : level_it -> Prop) : Prop :=
  match l with
  | [] => n = None /\ fin i
  | x :: r => n = Some x /\ yields i r fin
  end.
Lemma yields_next i l fin : yields i l fin -> exists i', it_next i = Some (i', hd_error l) /\ standing i' (hd_error l) l fin.
Proof. destruct l as [|n r]; intros (i'&E&Y); exists i'; split; try exact E; split; auto. Qed.

Lemma keep_add d x l res : res ++ keep d (x :: l) = (if d && ndel x then res else res ++ [x]) ++ keep d l.
Proof. unfold keep. cbn [filter]. destruct (d && ndel x); cbn [negb]; [reflexivity|]. rewrite <- app_assoc. reflexivity. Qed.

Lemma merge_loop_ok d fa fb : forall rounds la lb a b na nb res, length la + length lb < rounds ->
  standing a na la fa -> standing b nb lb fb ->
  exists a' b', merge_loop rounds d a b na nb res = Some (res ++ keep d (mrg la lb), a', b') /\ fa a' /\ fb b'.
Proof.
  induction rounds as [|r IH]; intros la lb a b na nb res Lr Sa Sb; [lia|]. cbn [merge_loop].
  destruct la as [|x ra].
  - destruct Sa as [-> Fa]. destruct lb as [|y rb].
    + destruct Sb as [-> Fb]. exists a, b. cbn. rewrite app_nil_r. auto.
    + destruct Sb as [-> Yb]. destruct (yields_next b rb fb Yb) as (b'&E&Sb'). rewrite E. cbn [length] in Lr.
      destruct (IH [] rb a b' None (hd_error rb) (if d && ndel y then res else res ++ [y]) ltac:(cbn; lia) (conj eq_refl Fa) Sb') as (a2&b2&E2&F).
      rewrite E2. exists a2, b2. split; [|exact F]. cbn [mrg]. rewrite keep_add. reflexivity.
  - destruct Sa as [-> Ya]. destruct (yields_next a ra fa Ya) as (a'&E&Sa'). destruct lb as [|y rb].
    + destruct Sb as [-> Fb]. rewrite E. cbn [length] in Lr.
      destruct (IH ra [] a' b (hd_error ra) None (if d && ndel x then res else res ++ [x]) ltac:(cbn; lia) Sa' (conj eq_refl Fb)) as (a2&b2&E2&F).
      rewrite E2. exists a2, b2. split; [|exact F]. rewrite !mrg_nil_r, keep_add. reflexivity.
    + destruct Sb as [-> Yb]. destruct (yields_next b rb fb Yb) as (b'&Eb&Sb'). rewrite mrg_eq. cbn [length] in Lr. destruct (bcompare (nkey x) (nkey y)).
      * rewrite E, Eb. destruct (IH ra rb a' b' _ _ (if d && ndel x then res else res ++ [x]) ltac:(lia) Sa' Sb') as (a2&b2&E2&F).
        rewrite E2. exists a2, b2. split; [|exact F]. rewrite keep_add. reflexivity.
      * rewrite E. destruct (IH ra (y :: rb) a' b _ (Some y) (if d && ndel x then res else res ++ [x]) ltac:(cbn; lia) Sa' (conj eq_refl Yb)) as (a2&b2&E2&F).
        rewrite E2. exists a2, b2. split; [|exact F]. rewrite keep_add. reflexivity.
      * rewrite Eb. destruct (IH (x :: ra) rb a b' (Some x) _ (if d && ndel y then res else res ++ [y]) ltac:(cbn; lia) (conj eq_refl Ya) Sb') as (a2&b2&E2&F).
        rewrite E2. exists a2, b2. split; [|exact F]. rewrite keep_add. reflexivity.
Qed.

Lemma level_merge_ok a b la lb d fa fb : yields a la fa -> yields b lb fb -> length la <= it_size a -> length lb <= it_size b ->
  exists a' b', level_merge a b d = Some (keep d (mrg la lb), a', b') /\ fa a' /\ fb b'.
Proof.
  intros Ya Yb La Lb. unfold level_merge. destruct (yields_next a la fa Ya) as (a1&Ea&Sa). destruct (yields_next b lb fb Yb) as (b1&Eb&Sb).
  rewrite Ea, Eb. destruct (merge_loop_ok d fa fb (it_size a + it_size b + 1) la lb a1 b1 _ _ [] ltac:(lia) Sa Sb) as (a2&b2&E&F).
  rewrite E. exists a2, b2. split; [reflexivity|exact F].
Qed.

(* what the merged list holds *)
Lemma asc_cons n l : ascending (n :: l) <-> ascending l /\ Forall (fun m => below (nkey n) (nkey m)) l.
Proof.
  unfold ascending. cbn [map]. split.
  - intros X. inversion X; subst. split; [assumption|]. rewrite Forall_map in H2. exact H2.
  - intros [X Y]. constructor; [exact X|]. rewrite Forall_map. exact Y.
Qed.

Lemma mrg_all (P : node -> Prop) la : forall lb, Forall P la -> Forall P lb -> Forall P (mrg la lb).
Proof.
  induction la as [|x ra IHa]; intros lb Fa Fb; [exact Fb|]. induction lb as [|y rb IHb]; [exact Fa|]. rewrite mrg_eq.
  inversion Fa; subst. inversion Fb; subst. destruct (bcompare (nkey x) (nkey y)); constructor; auto.
Qed.

Lemma mrg_asc la : forall lb, ascending la -> ascending lb -> ascending (mrg la lb).
Proof.
  induction la as [|x ra IHa]; intros lb Sa Sb; [exact Sb|]. induction lb as [|y rb IHb]; [exact Sa|]. rewrite mrg_eq.
  pose proof (proj1 (asc_cons x ra) Sa) as [Sa' Fa]. pose proof (proj1 (asc_cons y rb) Sb) as [Sb' Fb].
  destruct (bcompare (nkey x) (nkey y)) eqn:C.
  - apply bcompare_eq in C. apply asc_cons. split; [apply IHa; assumption|]. apply mrg_all; [exact Fa|]. rewrite C. exact Fb.
  - apply asc_cons. split; [apply IHa; assumption|]. apply mrg_all; [exact Fa|]. constructor; [exact C|]. eapply Forall_impl; [|exact Fb].
    intros m L. cbn in L. eapply below_trans; [exact C|exact L].
  - assert (C' : below (nkey y) (nkey x)) by (unfold below; rewrite (bcompare_antisym (nkey x) (nkey y)), C; reflexivity).
    apply asc_cons. split; [apply IHb; assumption|]. apply mrg_all; [|exact Fb]. constructor; [exact C'|]. eapply Forall_impl; [|exact Fa].
    intros m L. cbn in L. eapply below_trans; [exact C'|exact L].
Qed.

(* the delete mark of a key in a list *)
Fixpoint entry (l : list node) (k : key) : option bool :=
  match l with
  | [] => None
  | n :: r => if beqb (nkey n) k then Some (ndel n) else entry r k
  end.

Lemma entry_none l k : Forall (fun m => nkey m <> k) l -> entry l k = None.
Proof. induction 1 as [|n l Hn F IH]; cbn; [reflexivity|]. destruct (beqb (nkey n) k) eqn:B; [apply beqb_eq in B; contradiction|exact IH]. Qed.
Lemma entry_none_iff l k : entry l k = None <-> forall n, In n l -> nkey n <> k.
Proof.
  split.
  - induction l as [|m l IH]; cbn; intros E n [].
    + subst. intros <-. rewrite (proj2 (beqb_eq _ _) eq_refl) in E. discriminate.
    + destruct (beqb (nkey m) k); [discriminate|]. apply IH; assumption.
  - intros X. apply entry_none. apply Forall_forall. exact X.
Qed.
Lemma entry_some l k d : ascending l -> (entry l k = Some d <-> exists n, In n l /\ nkey n = k /\ ndel n = d).
Proof.
  induction l as [|m l IH]; cbn [entry]; intros A.
  - split; [discriminate|]. intros (n&[]&_).
  - apply asc_cons in A. destruct A as [A F]. destruct (beqb (nkey m) k) eqn:B.
    + apply beqb_eq in B. split.
      * intros X. exists m. split; [left; reflexivity|]. split; [exact B|congruence].
      * intros (n&[->|In1]&K&D); [congruence|]. rewrite Forall_forall in F. specialize (F n In1). rewrite B, K in F. exfalso. apply (below_irrefl k F).
    + rewrite (IH A). split.
      * intros (n&In1&X). exists n. split; [right; exact In1|exact X].
      * intros (n&[->|In1]&X); [|exists n; split; assumption]. exfalso. rewrite (proj2 (beqb_eq _ _) (proj1 X)) in B. discriminate.
Qed.

Lemma entry_mrg la : forall lb k, ascending la -> ascending lb ->
  entry (mrg la lb) k = match entry la k with Some d => Some d | None => entry lb k end.
Proof.
  induction la as [|x ra IHa]; intros lb k Sa Sb; [reflexivity|]. induction lb as [|y rb IHb]; [cbn; destruct (beqb (nkey x) k); [reflexivity|]; destruct (entry ra k); reflexivity|].
  rewrite mrg_eq. pose proof (proj1 (asc_cons x ra) Sa) as [Sa' Fa]. pose proof (proj1 (asc_cons y rb) Sb) as [Sb' Fb].
  destruct (bcompare (nkey x) (nkey y)) eqn:C; cbn [entry].
  - apply bcompare_eq in C. rewrite C. destruct (beqb (nkey y) k) eqn:B; [reflexivity|]. apply IHa; assumption.
  - destruct (beqb (nkey x) k) eqn:B; [reflexivity|]. rewrite IHa by assumption. reflexivity.
  - destruct (beqb (nkey y) k) eqn:B.
    + apply beqb_eq in B. subst k. assert (C' : below (nkey y) (nkey x)) by (unfold below; rewrite (bcompare_antisym (nkey x) (nkey y)), C; reflexivity).
      destruct (beqb (nkey x) (nkey y)) eqn:B2; [apply beqb_eq in B2; rewrite B2 in C'; exfalso; apply (below_irrefl _ C')|].
      rewrite entry_none; [reflexivity|]. eapply Forall_impl; [|exact Fa]. intros m L E. cbn in L. rewrite E in L. apply (below_irrefl (nkey y)). eapply below_trans; eauto.
    + rewrite (IHb Sb'). cbn [entry]. reflexivity.
Qed.

Lemma filter_asc f l : ascending l -> ascending (filter f l).
Proof.
  induction l as [|n l IH]; intros A; [constructor|]. apply asc_cons in A. destruct A as [A F]. cbn [filter]. destruct (f n); [|apply IH; exact A].
  apply asc_cons. split; [apply IH; exact A|]. apply Forall_forall. intros m In1. apply filter_In in In1. rewrite Forall_forall in F. apply F. tauto.
Qed.
Lemma entry_filter_key (f : node -> bool) l k : (forall n, In n l -> nkey n = k -> f n = true) -> entry (filter f l) k = entry l k.
Proof.
  induction l as [|n l IH]; intros X; [reflexivity|]. cbn [filter entry]. destruct (beqb (nkey n) k) eqn:B.
  - apply beqb_eq in B. rewrite (X n (or_introl eq_refl) B). cbn [entry]. rewrite (proj2 (beqb_eq _ _) B). reflexivity.
  - destruct (f n); [cbn [entry]; rewrite B|]; apply IH; intros m In1; apply X; right; exact In1.
Qed.
Lemma entry_keep d l k : ascending l -> entry (keep d l) k = match entry l k with Some true => if d then None else Some true | x => x end.
Proof.
  induction l as [|n l IH]; intros A; [reflexivity|]. apply asc_cons in A. destruct A as [A F]. unfold keep in *. cbn [filter entry].
  destruct (beqb (nkey n) k) eqn:B.
  - destruct (ndel n) eqn:D.
    + destruct d; cbn [andb negb].
      * change (filter (fun n0 => negb (ndel n0)) l) with (filter (fun n0 => negb (true && ndel n0)) l). rewrite (IH A). rewrite entry_none; [reflexivity|]. apply beqb_eq in B. subst k. eapply Forall_impl; [|exact F]. intros m L E. cbn in L. rewrite E in L. apply (below_irrefl _ L).
      * cbn [entry]. rewrite B, D. reflexivity.
    + rewrite andb_false_r. cbn [negb entry]. rewrite B, D. reflexivity.
  - destruct (negb (d && ndel n)); [cbn [entry]; rewrite B|]; apply IH; exact A.
Qed.

(* ---- the iterator over a list ---- *)
Lemma skipn_nth {A} (l : list A) i : skipn i l = match nth_error l i with Some n => n :: skipn (S i) l | None => [] end.
Proof. revert l. induction i as [|i IH]; intros [|a l]; try reflexivity. apply IH. Qed.

Lemma asc_skipn l i : ascending l -> ascending (skipn i l).
Proof. revert l. induction i as [|i IH]; intros l A; [exact A|]. destruct l as [|n l]; [exact A|]. cbn [skipn]. apply IH. apply asc_cons in A. apply A. Qed.

Lemma skip_same_asc l n i rounds : ascending l -> nth_error l i = Some n -> skip_same rounds l (nkey n) i = i.
Proof.
  intros A E. destruct rounds as [|r]; [reflexivity|]. cbn [skip_same]. destruct (nth_error l (S i)) as [m|] eqn:Em; [|reflexivity].
  destruct (beqb (nkey n) (nkey m)) eqn:B; [|reflexivity]. exfalso. apply beqb_eq in B.
  pose proof (asc_skipn l i A) as X. rewrite skipn_nth, E in X. apply asc_cons in X. destruct X as [_ F]. rewrite skipn_nth, Em in F. inversion F; subst.
  rewrite B in H1. apply (below_irrefl _ H1).
Qed.

Lemma second_find_ok l rg : ascending l -> forall rounds ix first,
  let l1 := skipn (if first : bool then ix else S ix) l in length l1 < rounds ->
  match filter (inside rg) l1 with
  | [] => exists i, second_find rounds (SI l ix first rg) = Some (i, None)
  | n :: r => exists j, second_find rounds (SI l ix first rg) = Some (SI l j false rg, Some n) /\ filter (inside rg) (skipn (S j) l) = r
  end.
Proof.
  intros A. induction rounds as [|rd IH]; intros ix first l1 Lr; [lia|]. cbn [second_find si_first si_list si_index si_range].
  subst l1. set (x := if first then ix else S ix) in *. pose proof (asc_skipn l x A) as Ax. rewrite skipn_nth in Lr, Ax |- *. destruct (nth_error l x) as [n|] eqn:E.
  2:{ cbn [filter]. eexists. reflexivity. }
  rewrite (skip_same_asc l n x _ A E). apply asc_cons in Ax. destruct Ax as [Ax F]. cbn [filter length] in *.
  destruct (negb match fst rg with [] => true | _ :: _ => false end && bltb (nkey n) (fst rg)) eqn:B1.
  - assert (I1 : inside rg n = false) by (unfold inside, outside; rewrite B1; reflexivity). rewrite I1.
    apply (IH x false). cbn beta iota. lia.
  - destruct (negb match snd rg with [] => true | _ :: _ => false end && bleb (snd rg) (nkey n)) eqn:B2.
    + assert (I1 : inside rg n = false) by (unfold inside, outside; rewrite B1, B2; reflexivity). rewrite I1.
      assert (Z : filter (inside rg) (skipn (S x) l) = []).
      { apply andb_true_iff in B2. destruct B2 as [B2 B3]. apply bleb_upto in B3. clear -F B2 B3. induction F as [|m r L F IH]; [reflexivity|]. cbn [filter].
        assert (I2 : inside rg m = false). { unfold inside, outside. rewrite B2. assert (Y : bleb (snd rg) (nkey m) = true) by (apply bleb_upto; apply below_le; eapply upto_below; eauto).
          rewrite Y. cbn. rewrite orb_true_r. reflexivity. }
        rewrite I2. exact IH. }
      rewrite Z. eexists. reflexivity.
    + assert (I1 : inside rg n = true) by (unfold inside, outside; rewrite B1, B2; reflexivity). rewrite I1. rewrite E.
      exists x. split; reflexivity.
Qed.

Lemma skipn_len {A} i (l : list A) : length (skipn i l) <= length l.
Proof. rewrite skipn_length. lia. Qed.

Lemma second_yields l rg : ascending l -> forall ix first,
  yields (It2 (SI l ix first rg)) (filter (inside rg) (skipn (if first : bool then ix else S ix) l)) (fun _ => True).
Proof.
  intros A ix first. remember (filter (inside rg) (skipn (if first then ix else S ix) l)) as out eqn:Eo. revert ix first Eo.
  induction out as [|n r IH]; intros ix first Eo.
  - cbn [yields it_next]. unfold second_next. cbn [si_list].
    pose proof (second_find_ok l rg A (S (length l)) ix first ltac:(pose proof (skipn_len (if first then ix else S ix) l); lia)) as X. cbn zeta in X. rewrite <- Eo in X.
    destruct X as (i&E). rewrite E. eexists. split; [reflexivity|exact Logic.I].
  - cbn [yields it_next]. unfold second_next. cbn [si_list].
    pose proof (second_find_ok l rg A (S (length l)) ix first ltac:(pose proof (skipn_len (if first then ix else S ix) l); lia)) as X. cbn zeta in X. rewrite <- Eo in X.
    destruct X as (j&E&R). rewrite E. eexists. split; [reflexivity|]. apply (IH j false). symmetry. exact R.
Qed.

Lemma filter_len {A} (f : A -> bool) l : length (filter f l) <= length l.
Proof. induction l as [|a l IH]; cbn; [lia|]. destruct (f a); cbn; lia. Qed.

(* ---- the iterator over level 1 ---- *)
Fixpoint mine (t : term) (l : list (key * node)) : list (key * node) :=
  match l with [] => [] | e :: r => if beqb (cstr (fst e)) t then e :: mine t r else [] end.
Fixpoint others (t : term) (l : list (key * node)) : list (key * node) :=
  match l with [] => [] | e :: r => if beqb (cstr (fst e)) t then others t r else l end.
Lemma mine_others t l : mine t l ++ others t l = l.
Proof. induction l as [|e l IH]; cbn; [reflexivity|]. destruct (beqb (cstr (fst e)) t); cbn; congruence. Qed.

(* of nodes with the same key in a row, the last *)
Fixpoint lasts (l : list node) : list node :=
  match l with
  | [] => []
  | a :: r => match r with
              | [] => [a]
              | b :: _ => if beqb (nkey a) (nkey b) then lasts r else a :: lasts r
              end
  end.
Lemma lasts_eq a b r : lasts (a :: b :: r) = if beqb (nkey a) (nkey b) then lasts (b :: r) else a :: lasts (b :: r).
Proof. reflexivity. Qed.

Definition ours (t : term) (rg : key * key) (l : list (key * node)) : list node := filter (inside rg) (map snd (mine t l)).

Lemma scan_ok t rg : forall l dels,
  match ours t rg l with
  | [] => scan t rg true l dels = Some (None, others t l, dels ++ map fst (mine t l))
  | n :: r => exists k l' dels', scan t rg true l dels = Some (Some n, (k, n) :: l', dels') /\ ours t rg l' = r /\ others t l' = others t l /\
                dels' ++ map fst (mine t l') = dels ++ map fst (mine t l) /\ length l' < length l
  end.
Proof.
  unfold ours. induction l as [|[k n] l IH]; intros dels; cbn [mine map filter scan others fst snd]; [rewrite app_nil_r; reflexivity|].
  destruct (beqb (cstr k) t) eqn:B; [|cbn; rewrite app_nil_r; reflexivity]. cbn [map filter fst snd].
  unfold inside at 1. destruct (outside rg (nkey n)) eqn:O; cbn [negb].
  - specialize (IH (dels ++ [k])). destruct (filter (inside rg) (map snd (mine t l))) as [|m r].
    + rewrite IH. rewrite <- app_assoc. reflexivity.
    + destruct IH as (k'&l'&dels'&E&A1&A2&A3&A4). exists k', l', dels'. split; [exact E|]. split; [exact A1|]. split; [exact A2|]. split; [|cbn; lia].
      rewrite A3, <- app_assoc. reflexivity.
  - exists k, l, (dels ++ [k]). split; [reflexivity|]. split; [reflexivity|]. split; [reflexivity|]. split; [rewrite <- app_assoc; reflexivity|cbn; lia].
Qed.

(* the state of the iterator: what it will still give, where it ends, what it deletes *)
Definition ahead (i : first_it) : list (key * node) := if fi_first i then fi_rest i else tl (fi_rest i).
Definition will (i : first_it) (out : list node) (rest : list (key * node)) (dels : list key) : Prop :=
  fi_handle i = true /\
  if fi_need i then
    (length (fi_dq i) <= 1) /\ out = lasts (fi_dq i ++ ours (fi_term i) (fi_range i) (ahead i)) /\
    rest = others (fi_term i) (ahead i) /\ dels = fi_dels i ++ map fst (mine (fi_term i) (ahead i))
  else out = fi_dq i /\ (length out <= 1) /\ fi_rest i = rest /\ fi_dels i = dels.

Lemma fill_ok : forall rounds i out rest dels, fi_need i = true -> will i out rest dels -> length (ahead i) < rounds ->
  exists i', fill rounds i = Some i' /\
    match out with
    | a :: b :: r => fi_need i' = true /\ exists b', fi_dq i' = [a; b'] /\
                      will (FI (fi_rest i') (fi_term i') (fi_first i') (fi_range i') (fi_handle i') (fi_dels i') [b'] true) (b :: r) rest dels
    | _ => fi_need i' = false /\ fi_dq i' = out /\ will i' out rest dels
    end.
Proof.
  induction rounds as [|rd IH]; intros i out rest dels Nd W Lr; [lia|]. destruct W as [Hh W]. rewrite Nd in W. destruct W as (Ld&Eo&Er&Ed).
  cbn [fill]. rewrite Nd. cbn [andb]. assert (L2 : (length (fi_dq i) <? 2) = true) by (apply Nat.ltb_lt; lia). rewrite L2.
  fold (ahead i). rewrite Hh. pose proof (scan_ok (fi_term i) (fi_range i) (ahead i) (fi_dels i)) as Sc.
  destruct (ours (fi_term i) (fi_range i) (ahead i)) as [|n r] eqn:Eu.
  - rewrite Sc. rewrite app_nil_r in Eo. eexists. split; [reflexivity|].
    assert (Eo' : out = fi_dq i) by (rewrite Eo; destruct (fi_dq i) as [|a [|b q]]; try reflexivity; cbn [length] in Ld; lia).
    destruct out as [|a [|b q]]; [| |rewrite <- Eo' in Ld; cbn [length] in Ld; lia]; cbn [fi_need fi_dq]; (split; [reflexivity|]; split; [congruence|]; split; [reflexivity|]; cbn [fi_need fi_dq fi_rest fi_dels]; split; [congruence|]; split; [cbn; lia|]; split; congruence).
  - destruct Sc as (k&l'&dels'&E&A1&A2&A3&A4). rewrite E.
    destruct (fi_dq i) as [|a q] eqn:Eq.
    + apply IH; [reflexivity| |unfold ahead; cbn [fi_first fi_rest tl]; lia].
      split; [reflexivity|]. cbn [fi_need fi_dq fi_term fi_range fi_dels]. unfold ahead. cbn [fi_first fi_rest tl]. split; [cbn; lia|]. rewrite A1. split; [exact Eo|]. split; [congruence|congruence].
    + assert (q = []) by (destruct q; [reflexivity|cbn [length] in Ld; lia]). subst q. cbn [last removelast app]. cbn [app] in Eo. rewrite lasts_eq in Eo.
      destruct (beqb (nkey n) (nkey a)) eqn:B.
      * apply beqb_eq in B. rewrite (proj2 (beqb_eq (nkey a) (nkey n)) (eq_sym B)) in Eo. apply IH; [reflexivity| |unfold ahead; cbn [fi_first fi_rest tl]; lia].
        split; [reflexivity|]. cbn [fi_need fi_dq fi_term fi_range fi_dels]. unfold ahead. cbn [fi_first fi_rest tl]. split; [cbn; lia|]. rewrite A1. split; [exact Eo|]. split; congruence.
      * assert (B' : beqb (nkey a) (nkey n) = false) by (destruct (beqb (nkey a) (nkey n)) eqn:X; [apply beqb_eq in X; rewrite X, (proj2 (beqb_eq _ _) eq_refl) in B; discriminate|reflexivity]).
        rewrite B' in Eo. eexists. split; [reflexivity|].
        assert (Ne : exists b r', lasts (n :: r) = b :: r').
        { clear. revert n. induction r as [|m r IHr]; intros n; [cbn; eauto|]. rewrite lasts_eq. destruct (beqb (nkey n) (nkey m)); [apply IHr|eauto]. }
        destruct Ne as (b&r'&Eb). rewrite Eb in Eo. subst out. cbn [fi_need fi_dq fi_rest fi_term fi_first fi_range fi_handle fi_dels]. split; [reflexivity|]. exists n. split; [reflexivity|].
        split; [reflexivity|]. cbn [fi_need fi_dq fi_term fi_range fi_dels]. unfold ahead. cbn [fi_first fi_rest tl]. split; [cbn; lia|]. rewrite A1. split; [cbn [app]; congruence|]. split; congruence.
Qed.

Lemma first_next_ok i out rest dels : will i out rest dels ->
  exists i', first_next i = Some (i', hd_error out) /\ will i' (tl out) rest dels.
Proof.
  intros W. unfold first_next. destruct (fi_need i) eqn:Nd.
  - destruct (fill_ok (length (fi_rest i) + 2) i out rest dels Nd W) as (i'&E&X).
    { unfold ahead. destruct (fi_first i); [lia|]. destruct (fi_rest i); cbn; lia. }
    rewrite E. destruct out as [|a [|b r]].
    + destruct X as (Nd'&Dq&W'). rewrite Dq, Nd'. exists i'. split; [reflexivity|exact W'].
    + destruct X as (Nd'&Dq&W'). rewrite Dq, Nd'. eexists. split; [reflexivity|]. destruct W' as [Hh W']. rewrite Nd' in W'. split; [exact Hh|]. cbn [fi_need fi_dq fi_rest fi_dels tl].
      destruct W' as (_&_&W1&W2). split; [reflexivity|]. split; [cbn; lia|]. split; assumption.
    + destruct X as (Nd'&b'&Dq&W'). rewrite Dq. rewrite Nd'. eexists. split; [reflexivity|exact W'].
  - destruct W as [Hh W]. rewrite Nd in W. destruct W as (->&L&W1&W2). replace (length (fi_rest i) + 2) with (S (S (length (fi_rest i)))) by lia. cbn [fill]. rewrite Nd. cbn [andb].
    destruct (fi_dq i) as [|a [|b q]] eqn:Dq; [| |cbn [length] in L; lia].
    + rewrite Nd. exists i. split; [reflexivity|]. split; [exact Hh|]. rewrite Nd. split; [rewrite Dq; reflexivity|]. split; [cbn; lia|]. split; assumption.
    + rewrite Nd. eexists. split; [reflexivity|]. split; [exact Hh|]. cbn [fi_need fi_dq fi_rest fi_dels tl]. split; [reflexivity|]. split; [cbn; lia|]. split; assumption.
Qed.

Lemma first_yields out : forall i rest dels, will i out rest dels ->
  yields (It1 i) out (fun a => exists j, a = It1 j /\ fi_need j = false /\ fi_rest j = rest /\ fi_dels j = dels).
Proof.
  induction out as [|n r IH]; intros i rest dels W; cbn [yields it_next].
  - destruct (first_next_ok i [] rest dels W) as (i'&E&W'). rewrite E. eexists. split; [reflexivity|]. exists i'. split; [reflexivity|].
    pose proof W as W0. unfold first_next in E. destruct (fill (length (fi_rest i) + 2) i) as [j|] eqn:F; [|discriminate].
    destruct (fi_dq j) as [|a [|b q]] eqn:Dq; try discriminate E.
    + destruct (fi_need j) eqn:Nj; [discriminate E|]. injection E as <-. destruct W' as [_ W']. rewrite Nj in W'. tauto.
    + destruct (fi_need j); discriminate E.
  - destruct (first_next_ok i (n :: r) rest dels W) as (i'&E&W'). rewrite E. eexists. split; [reflexivity|]. apply IH. exact W'.
Qed.

Lemma lasts_len l : length (lasts l) <= length l.
Proof. induction l as [|a [|b r] IH]; try (cbn; lia). rewrite lasts_eq. destruct (beqb (nkey a) (nkey b)); cbn [length] in *; lia. Qed.
Lemma mine_len t l : length (mine t l) <= length l.
Proof. pose proof (f_equal (@length _) (mine_others t l)) as X. rewrite app_length in X. lia. Qed.

Lemma first_start t rg l : will (FI l t true rg true [] [] true) (lasts (ours t rg l)) (others t l) (map fst (mine t l)).
Proof. split; [reflexivity|]. cbn. split; [lia|]. split; [reflexivity|]. split; reflexivity. Qed.

Lemma keep_false l : keep false l = l.
Proof. unfold keep. induction l as [|n l IH]; [reflexivity|]. cbn [filter andb negb]. f_equal. exact IH. Qed.

(* merging level 1 of a term over a list *)
Lemma merge12_ok t rg l lst : ascending lst ->
  exists i b, level_merge (It1 (FI l t true rg true [] [] true)) (It2 (SI lst 0 true rg)) false =
    Some (mrg (lasts (ours t rg l)) (filter (inside rg) lst), It1 i, b) /\
    fi_rest i = others t l /\ fi_dels i = map fst (mine t l).
Proof.
  intros A. destruct (level_merge_ok (It1 (FI l t true rg true [] [] true)) (It2 (SI lst 0 true rg)) (lasts (ours t rg l)) (filter (inside rg) lst) false _ _
    (first_yields _ _ _ _ (first_start t rg l)) (second_yields lst rg A 0 true)) as (a'&b'&E&(j&->&_&R&D)&_).
  - cbn [it_size fi_rest]. pose proof (lasts_len (ours t rg l)). unfold ours in *. pose proof (filter_len (inside rg) (map snd (mine t l))). rewrite map_length in *. pose proof (mine_len t l). lia.
  - cbn [it_size si_list]. apply filter_len.
  - exists j, b'. split; [|split; assumption]. rewrite E. rewrite keep_false. reflexivity.
Qed.

Lemma merge22_ok rg la lb d : ascending la -> ascending lb ->
  exists a b, level_merge (It2 (SI la 0 true rg)) (It2 (SI lb 0 true rg)) d =
    Some (keep d (mrg (filter (inside rg) la) (filter (inside rg) lb)), a, b).
Proof.
  intros A B. destruct (level_merge_ok (It2 (SI la 0 true rg)) (It2 (SI lb 0 true rg)) (filter (inside rg) la) (filter (inside rg) lb) d _ _
    (second_yields la rg A 0 true) (second_yields lb rg B 0 true)) as (a'&b'&E&_); try (cbn [it_size si_list]; apply filter_len).
  eauto.
Qed.
