(* The IN branch of predicate_cut. *)
From Verif Require Import Common.Bytes Common.KV Expr.Value Expr.Model Expr.Spec Expr.Proofs Expr.RowCompare Cut.Model Cut.Spec Cut.Values Cut.Truth Cut.Collect Cut.EqStep.
Local Open Scope Z_scope.

(* ---- the maps of texts ---- *)

Lemma texts_in l : forall ts, texts l = Some ts ->
  (forall v, List.In v l -> exists s, get_string v = Some s /\ List.In (s, v) ts) /\
  (forall s v, List.In (s, v) ts -> get_string v = Some s /\ List.In v l).
Proof.
  induction l as [|x l IH]; intros ts E; cbn [texts] in E.
  - injection E as <-. split; [intros v []|intros s v []].
  - destruct (get_string x) as [sx|] eqn:Ex; [|discriminate]. destruct (texts l) as [ts'|] eqn:Et; [|discriminate].
    injection E as <-. destruct (IH ts' eq_refl) as (A&B). split.
    + intros v [<-|H]; [exists sx; split; [exact Ex|left; reflexivity]|]. destruct (A v H) as (s&Es&Hs). exists s. split; [exact Es|right; exact Hs].
    + intros s v [E|H]; [injection E as <- <-; split; [exact Ex|left; reflexivity]|]. destruct (B s v H). split; [assumption|right; assumption].
Qed.

Lemma fold_put (ts : list (list Z * value)) : forall m, ksorted m ->
  ksorted (fold_left (fun m e => kput (fst e) (snd e) m) ts m) /\
  (forall k v, kget k (fold_left (fun m e => kput (fst e) (snd e) m) ts m) = Some v -> kget k m = Some v \/ List.In (k, v) ts) /\
  (forall k, kget k m <> None \/ (exists v, List.In (k, v) ts) -> kget k (fold_left (fun m e => kput (fst e) (snd e) m) ts m) <> None).
Proof.
  induction ts as [|[k0 v0] ts IH]; intros m Sm; cbn [fold_left fst snd].
  - split; [exact Sm|]. split; [auto|]. intros k [H|(v&[])]. exact H.
  - destruct (IH (kput k0 v0 m) (kput_sorted k0 v0 m Sm)) as (A&B&D). split; [exact A|]. split.
    + intros k v E. destruct (B k v E) as [E2|H]; [|right; right; exact H]. rewrite kget_put in E2 by exact Sm.
      destruct (beqb k k0) eqn:Ek; [|auto]. injection E2 as ->. apply beqb_eq in Ek. subst k. right. left. reflexivity.
    + intros k H. apply D. rewrite kget_put by exact Sm. destruct (beqb k k0) eqn:Ek; [left; discriminate|].
      destruct H as [H|(v&[E|H])]; [left; exact H| |right; eauto]. injection E as -> ->. exfalso.
      assert (beqb k k = true) by (apply beqb_eq; reflexivity). congruence.
Qed.

Lemma fold_meet (m : kv value) (ts : list (list Z * value)) : ksorted m -> forall o, ksorted o ->
  let f := fun o e => match kget (fst e) m with Some v => kput (fst e) v o | None => o end in
  ksorted (fold_left f ts o) /\
  (forall k v, kget k (fold_left f ts o) = Some v -> kget k o = Some v \/ (kget k m = Some v /\ exists v', List.In (k, v') ts)) /\
  (forall k v, kget k m = Some v -> (kget k o = Some v \/ exists v', List.In (k, v') ts) -> kget k (fold_left f ts o) = Some v).
Proof.
  intros Sm. induction ts as [|[k0 v0] ts IH]; intros o So f; cbn [fold_left].
  - split; [exact So|]. split; [auto|]. intros k v _ [H|(v'&[])]. exact H.
  - assert (So' : ksorted (f o (k0, v0))).
    { unfold f. cbn [fst]. destruct (kget k0 m); [apply kput_sorted|]; exact So. }
    destruct (IH (f o (k0, v0)) So') as (A&B&D). fold f in A, B, D. split; [exact A|]. split.
    + intros k v E. destruct (B k v E) as [E2|(E2&v'&H)]; [|right; split; [exact E2|exists v'; right; exact H]].
      unfold f in E2. cbn [fst] in E2. destruct (kget k0 m) as [w|] eqn:Ew; [|auto].
      rewrite kget_put in E2 by exact So. destruct (beqb k k0) eqn:Ek; [|auto]. injection E2 as ->. apply beqb_eq in Ek. subst k.
      right. split; [exact Ew|]. exists v0. left. reflexivity.
    + intros k v Em H. apply D; [exact Em|]. unfold f at 1. cbn [fst]. destruct (kget k0 m) as [w|] eqn:Ew.
      * rewrite kget_put by exact So. destruct (beqb k k0) eqn:Ek.
        -- apply beqb_eq in Ek. subst k. left. congruence.
        -- destruct H as [H|(v'&[E|H])]; [left; exact H| |right; eauto]. injection E as -> ->. exfalso.
           assert (beqb k k = true) by (apply beqb_eq; reflexivity). congruence.
      * destruct H as [H|(v'&[E|H])]; [left; exact H| |right; eauto]. injection E as -> ->. congruence.
Qed.

Lemma ksorted_nil : @ksorted value []. Proof. constructor. Qed.

Section Step.
Variable Z : value -> Prop.
Variable C : nat -> ptype.

Definition colv (t : ptype) (v : value) : Prop := fz Z t v /\ (t = PString -> is_null v = false).

Lemma text_eq t x v v' s s' : usable t -> colv t v -> colv t v' -> eqv2 x v ->
  get_string v = Some s -> get_string v' = Some s' -> (s = s' <-> eqv2 x v').
Proof.
  intros U (Fv&_) (Fv'&Nv') Q E E'. destruct (eqv2_null _ _ Q) as (_&Nv). destruct (is_null v') eqn:N'.
  - split.
    + intros ->. exfalso. destruct (fit_text_null t v v' U) as [D|D]; try congruence; [|apply Fv].
      intros T. specialize (Nv' T). congruence.
    + intros Q'. apply eqv2_null in Q'. destruct Q'. congruence.
  - rewrite (fit_text t v v' s s' U (proj1 Fv) (proj1 Fv') Nv N' E E'). split; intros Q'.
    + eapply eqv2_trans; eauto.
    + eapply eqv2_trans; [apply eqv2_sym; exact Q|exact Q'].
Qed.

Lemma in_nth_map (l : list elem) j e : nth_error l j = Some e -> nth j (map snd l) vnull = snd e.
Proof. intros N. apply nth_error_nth. apply (map_nth_error snd j l N). Qed.

Lemma in_col_ok i p : wt Z C p -> current i Rin p ->
  exists vals, in_col i p = Some vals /\ usable (C i) /\ Forall (colv (C i)) vals /\
    (forall r, row_fz Z C r -> TRUE r p -> exists v, List.In v vals /\ eqv2 (r i) v) /\
    (is_in p = true -> forall r, row_fz Z C r -> (exists v, List.In v vals /\ eqv2 (r i) v) -> TRUE r p).
Proof.
  destruct p as [o a x v|x l hn|o xs vs|xs rows hn|e]; cbn [wt current in_col is_in]; try contradiction.
  - intros _ (t&_&K). destruct o; try discriminate. contradiction.
  - intros (t&U&L&NE&F) (t'&->&_). destruct L as (->&E). subst t. exists (map snd l). split; [reflexivity|].
    split; [exact U|]. split.
    { rewrite Forall_forall in *. intros v Hv. apply in_map_iff in Hv. destruct Hv as (e&<-&He).
      destruct (F e He) as ((_&A)&B&D). split; [split; assumption|exact D]. }
    split.
    + intros r R T. apply (T_in Z C r R (C i) (LSlot i (C i)) l hn U (conj eq_refl eq_refl) F) in T. destruct T as (xv&e&Ex&He&Q).
      destruct (leaf_slot_val Z C r i (C i) R U (conj eq_refl eq_refl)) as (Ev&_). rewrite Ev in Ex. injection Ex as <-.
      exists (snd e). split; [apply in_map; exact He|exact Q].
    + intros _ r R (v&Hv&Q). apply (T_in Z C r R (C i) (LSlot i (C i)) l hn U (conj eq_refl eq_refl) F).
      apply in_map_iff in Hv. destruct Hv as (e&<-&He).
      destruct (leaf_slot_val Z C r i (C i) R U (conj eq_refl eq_refl)) as (Ev&_). exists (r i), e. auto.
  - intros _ (_&K&_). discriminate.
  - intros (ts&U&L&N&NE&G&ZZ) (_&A). destruct (slot_idx_in i xs 0 A) as (j&t&Sj&Nj). cbn [Nat.add] in Sj. rewrite Sj.
    destruct (nth_F2_r _ _ _ _ _ L Nj) as (t2&Nt&Et&EC). subst t t2.
    destruct (nth_F _ _ _ _ U Nt) as (Ui&_).
    assert (Col : forall g, List.In g rows -> exists e, nth_error g j = Some e /\ elem_fz Z (C i) e).
    { intros g Hg. rewrite Forall_forall in G. eapply nth_F2_l; eauto. }
    assert (forallb (fun l => Nat.ltb j (length l)) rows = true) as ->.
    { apply forallb_forall. intros g Hg. destruct (Col g Hg) as (e&He&_). apply Nat.ltb_lt. eapply nth_some_lt; eauto. }
    eexists. split; [reflexivity|]. split; [exact Ui|]. split.
    { rewrite Forall_forall. intros v Hv. apply in_map_iff in Hv. destruct Hv as (g&<-&Hg). destruct (Col g Hg) as (e&He&(_&A1)&B1&D1).
      rewrite (in_nth_map g j e He). split; [split; assumption|exact D1]. }
    split; [|discriminate]. intros r R T. apply (T_rowin Z C r R ZZ ts xs rows hn U L G) in T. destruct T as (l&g&El&Hg&Q).
    destruct (Col g Hg) as (e&He&_). destruct (leaf_vals_nth r xs l j _ El Nj) as (x&Nx&Ex).
    destruct (leaf_slot_val Z C r i (C i) R Ui (conj eq_refl eq_refl)) as (Ev&_). rewrite Ev in Ex. injection Ex as <-.
    destruct (nth_F2_l _ _ _ _ _ Q Nx) as (e2&He2&Q2). assert (e2 = e) as -> by congruence.
    exists (snd e). split; [|exact Q2]. apply in_map_iff. exists g. split; [apply in_nth_map; exact He|exact Hg].
Qed.

(* deleting list entries *)
Lemma filter_ne {A} (f : A -> bool) l x : List.In x l -> f x = true -> filter f l <> [].
Proof. intros H E N. assert (List.In x (filter f l)) by (apply filter_In; auto). rewrite N in *. contradiction. Qed.
Lemma F_filter {A} (P : A -> Prop) f l : Forall P l -> Forall P (filter f l).
Proof. rewrite !Forall_forall. intros H x Hx. apply filter_In in Hx. apply H, Hx. Qed.

Lemma trim_ok i keep p vals : wt Z C p -> current i Rin p -> in_col i p = Some vals ->
  (exists v, List.In v vals /\ kept keep v = true) ->
  wt Z C (trim i keep p) /\
  (forall r, row_fz Z C r -> TRUE r (trim i keep p) -> TRUE r p /\ exists v, List.In v vals /\ kept keep v = true /\ eqv2 (r i) v) /\
  (forall r, row_fz Z C r -> TRUE r p -> (forall v, List.In v vals -> eqv2 (r i) v -> kept keep v = true) -> TRUE r (trim i keep p)).
Proof.
  destruct p as [o a x v|x l hn|o xs vs|xs rows hn|e]; cbn [wt current in_col trim]; try contradiction; try discriminate.
  - intros (t&U&L&NE&F) (t'&->&_) Ec (v0&Hv0&K0). injection Ec as <-. destruct L as (->&E). subst t.
    assert (F' : Forall (elem_fz Z (C i)) (filter (fun e => kept keep (snd e)) l)) by (apply F_filter; exact F).
    split.
    { exists (C i). split; [exact U|]. split; [split; reflexivity|]. split; [|exact F'].
      apply in_map_iff in Hv0. destruct Hv0 as (e&<-&He). eapply filter_ne; eauto. }
    assert (LL : leaf_fz Z C (C i) (LSlot i (C i))) by (split; reflexivity). split.
    + intros r R T. apply (T_in Z C r R (C i) (LSlot i (C i)) _ hn U LL F') in T. destruct T as (xv&e&Ex&He&Q).
      apply filter_In in He. destruct He as (He&K). split.
      * apply (T_in Z C r R (C i) (LSlot i (C i)) l hn U LL F). exists xv, e. auto.
      * destruct (leaf_slot_val Z C r i (C i) R U LL) as (Ev&_). rewrite Ev in Ex. injection Ex as <-.
        exists (snd e). split; [apply in_map; exact He|auto].
    + intros r R T K. apply (T_in Z C r R (C i) (LSlot i (C i)) l hn U LL F) in T. destruct T as (xv&e&Ex&He&Q).
      apply (T_in Z C r R (C i) (LSlot i (C i)) _ hn U LL F'). exists xv, e. split; [exact Ex|]. split; [|exact Q].
      apply filter_In. split; [exact He|]. destruct (leaf_slot_val Z C r i (C i) R U LL) as (Ev&_). rewrite Ev in Ex. injection Ex as <-.
      apply K; [apply in_map; exact He|exact Q].
  - intros (ts&U&L&N&NE&G&ZZ) (_&A). destruct (slot_idx_in i xs 0 A) as (j&t&Sj&Nj). cbn [Nat.add] in Sj. rewrite Sj.
    destruct (nth_F2_r _ _ _ _ _ L Nj) as (t2&Nt&Et&EC). subst t t2.
    destruct (nth_F _ _ _ _ U Nt) as (Ui&_).
    assert (Col : forall g, List.In g rows -> exists e, nth_error g j = Some e /\ elem_fz Z (C i) e).
    { intros g Hg. rewrite Forall_forall in G. eapply nth_F2_l; eauto. }
    destruct (forallb _ rows); [|discriminate]. intros Ec (v0&Hv0&K0). injection Ec as <-.
    set (f := fun l : list elem => kept keep (nth j (map snd l) vnull)).
    assert (G' : Forall (fun l => Forall2 (elem_fz Z) ts l) (filter f rows)) by (apply F_filter; exact G).
    split.
    { cbn [wt]. exists ts. do 3 (split; [assumption|]). split; [|split; assumption].
      apply in_map_iff in Hv0. destruct Hv0 as (g&<-&Hg). eapply filter_ne; eauto. }
    assert (Wit : forall r l g, row_fz Z C r -> leaf_vals r xs = Some l -> Forall2 (fun x (e : elem) => eqv2 x (snd e)) l g -> List.In g rows ->
              eqv2 (r i) (nth j (map snd g) vnull)).
    { intros r l g R El Q Hg. destruct (Col g Hg) as (e&He&_). destruct (leaf_vals_nth r xs l j _ El Nj) as (x&Nx&Ex).
      destruct (leaf_slot_val Z C r i (C i) R Ui (conj eq_refl eq_refl)) as (Ev&_). rewrite Ev in Ex. injection Ex as <-.
      destruct (nth_F2_l _ _ _ _ _ Q Nx) as (e2&He2&Q2). assert (e2 = e) as -> by congruence.
      rewrite (in_nth_map g j e He). exact Q2. }
    split.
    + intros r R T. apply (T_rowin Z C r R ZZ ts xs _ hn U L G') in T. destruct T as (l&g&El&Hg&Q).
      apply filter_In in Hg. destruct Hg as (Hg&K). split.
      * apply (T_rowin Z C r R ZZ ts xs rows hn U L G). exists l, g. auto.
      * exists (nth j (map snd g) vnull). split; [apply in_map_iff; exists g; auto|]. split; [exact K|]. eapply Wit; eauto.
    + intros r R T K. apply (T_rowin Z C r R ZZ ts xs rows hn U L G) in T. destruct T as (l&g&El&Hg&Q).
      apply (T_rowin Z C r R ZZ ts xs _ hn U L G'). exists l, g. split; [exact El|]. split; [|exact Q].
      apply filter_In. split; [exact Hg|]. apply K; [apply in_map_iff; exists g; auto|]. eapply Wit; eauto.
Qed.

Lemma trim_evolved i keep p0 p : evolved i p0 p -> current i Rin p -> evolved (S i) p0 (trim i keep p).
Proof.
  intros E Cu. destruct p as [o a x v|x l hn|o xs vs|xs rows hn|e]; cbn [current trim] in *;
    try (eapply evolved_mono; [|exact E]; lia).
  - destruct Cu as (t&->&_). destruct p0; cbn in E; try contradiction. right. destruct E as [E|(_&L)]; [|cbn in L; lia].
    injection E as <- <- <-. cbn. lia.
  - destruct (slot_idx i 0 xs); [|eapply evolved_mono; [|exact E]; lia].
    destruct p0; cbn in E; try contradiction. cbn. eapply levs_mono; [|exact E]. lia.
Qed.

Lemma trim_all_nth i keep ns : forall cs m, NoDup ns ->
  nth_error (trim_all i keep ns cs) m =
    (if existsb (Nat.eqb m) ns then option_map (trim i keep) (nth_error cs m) else nth_error cs m).
Proof.
  induction ns as [|n ns IH]; intros cs m ND; cbn [trim_all existsb]; [reflexivity|]. inversion ND as [|? ? Nn ND']; subst.
  rewrite IH by exact ND'. destruct (Nat.eqb_spec m n) as [->|D]; cbn [orb].
  - assert (existsb (Nat.eqb n) ns = false) as ->.
    { apply not_true_is_false. intros H. apply existsb_exists in H. destruct H as (y&Hy&Ey). apply Nat.eqb_eq in Ey. subst y. contradiction. }
    destruct (nth_error cs n) as [p|] eqn:E; [|rewrite E; reflexivity]. apply nth_set_same. eapply nth_some_lt; eauto.
  - destruct (nth_error cs n) as [p|] eqn:E; [|reflexivity]. rewrite nth_set_other by congruence. reflexivity.
Qed.
Lemma trim_all_len i keep ns : forall cs, length (trim_all i keep ns cs) = length cs.
Proof.
  induction ns as [|n ns IH]; intros cs; cbn [trim_all]; [reflexivity|]. rewrite IH. destruct (nth_error cs n); [apply set_nth_len|reflexivity].
Qed.

(* the bounds, tried on a constant *)
Lemma all_hold_ok i cs w ns b : usable (C i) -> fz Z (C i) w -> all_hold cs w ns = Some b ->
  (forall n, List.In n ns -> exists o a v, nth_error cs n = Some (Cmp o a (LSlot i (C i)) v) /\ wt Z C (Cmp o a (LSlot i (C i)) v)) ->
  forall r, row_fz Z C r -> eqv2 (r i) w ->
    (b = true <-> forall n p, List.In n ns -> nth_error cs n = Some p -> TRUE r p).
Proof.
  intros U Fw. revert b. induction ns as [|n ns IH]; intros b E H r R Q; cbn [all_hold] in E.
  - injection E as <-. split; [intros _ n p []|reflexivity].
  - destruct (H n (or_introl eq_refl)) as (o&a&v&N&W). rewrite N in E. cbn [put] in E.
    destruct (peval _ (Cmp o a (LVal w) v)) as [pv|] eqn:Ep; [|discriminate].
    destruct (all_hold cs w ns) as [b'|] eqn:Eb; [|discriminate]. injection E as <-.
    specialize (IH b' eq_refl (fun m Hm => H m (or_intror Hm)) r R Q).
    assert (T : TRUE r (Cmp o a (LSlot i (C i)) v) <-> negb (is_null pv) && get_bool pv = true).
    { assert (Cu : exists k, current i k (Cmp o a (LSlot i (C i)) v) \/ o = CNe).
      { destruct o; [exists Req|exists Req|exists Rgt|exists Rgt|exists Rlt|exists Rlt]; auto; left; exists (C i); auto. }
      assert (S1 : TRUE r (Cmp o a (LSlot i (C i)) v) <-> TRUE r (Cmp o a (LVal w) v)).
      { destruct W as (t&Ut&->&L&F&Nb). destruct L as (Et&_). rewrite <- Et in *.
        assert (Lw : leaf_fz Z C (C i) (LVal w)) by exact Fw.
        rewrite (T_cmp Z C r R (C i) o (LSlot i (C i)) v U (conj eq_refl eq_refl) F), (T_cmp Z C r R (C i) o (LVal w) v U Lw F).
        destruct (leaf_slot_val Z C r i (C i) R U (conj eq_refl eq_refl)) as (Ev&_). rewrite Ev. cbn [leaf_val]. unfold cmp3.
        split; intros (y&Ey&Hy); injection Ey as <-.
        - exists w. split; [reflexivity|]. rewrite <- (eqv2_l _ _ v Q). exact Hy.
        - exists (r i). split; [reflexivity|]. rewrite (eqv2_l _ _ v Q). exact Hy. }
      rewrite S1. unfold TRUE. change (peval r (Cmp o a (LVal w) v)) with (peval (fun _ => vnull) (Cmp o a (LVal w) v)). rewrite Ep.
      rewrite andb_true_iff, negb_true_iff. split.
      - intros (v'&Ev'&A&B). injection Ev' as <-. auto.
      - intros (A&B). exists pv. auto. }
    rewrite andb_true_iff, <- T, IH. split.
    + intros (A&B) m p [<-|Hm] Np; [assert (p = Cmp o a (LSlot i (C i)) v) as -> by congruence; exact A|eapply B; eauto].
    + intros A. split; [eapply A; [left; reflexivity|exact N]|]. intros m p Hm Np. eapply A; [right; exact Hm|exact Np].
Qed.

Lemma keep_keys_in cs ns m : forall keep, keep_keys cs ns m = Some keep ->
  (forall k, List.In k keep <-> exists v, List.In (k, v) m /\ all_hold cs v ns = Some true) /\
  (forall k v, List.In (k, v) m -> exists b, all_hold cs v ns = Some b).
Proof.
  induction m as [|[k0 v0] m IH]; intros keep E; cbn [keep_keys] in E.
  - injection E as <-. split; [intros k; split; [intros []|intros (v&[]&_)]|intros k v []].
  - destruct (all_hold cs v0 ns) as [b|] eqn:Eb; [|discriminate]. destruct (keep_keys cs ns m) as [ks|] eqn:Ek; [|discriminate].
    injection E as <-. destruct (IH ks eq_refl) as (A&B). split.
    + intros k. destruct b; cbn [List.In]; rewrite A; split.
      * intros [<-|(v&Hv&Hh)]; [exists v0; auto|exists v; auto].
      * intros (v&[E|Hv]&Hh); [injection E as <- <-; auto|right; eauto].
      * intros (v&Hv&Hh). exists v; auto.
      * intros (v&[E|Hv]&Hh); [injection E as <- <-; congruence|eauto].
    + intros k v [E|H]; [injection E as <- <-; eauto|eauto].
Qed.

(* intersection of the lists *)
Lemma meet_ok i cs ns : forall m cut m' cut', ksorted m -> meet i cs ns m cut = Some (m', cut') ->
  ksorted m' /\
  (forall k v, kget k m' = Some v <-> kget k m = Some v /\
     forall n p vals, List.In n ns -> nth_error cs n = Some p -> in_col i p = Some vals -> exists v', List.In v' vals /\ get_string v' = Some k) /\
  (forall n, List.In n cut' <-> List.In n cut \/ (List.In n ns /\ exists p, nth_error cs n = Some p /\ is_in p = true)) /\
  (forall n p vals, List.In n ns -> nth_error cs n = Some p -> in_col i p = Some vals -> exists ts, texts vals = Some ts).
Proof.
  induction ns as [|n ns IH]; intros m cut m' cut' Sm E; cbn [meet] in E.
  - injection E as <- <-. split; [exact Sm|]. split; [|split].
    + intros k v. split; [intros H; split; [exact H|intros ? ? ? []]|intros (H&_); exact H].
    + intros n. split; [auto|]. intros [H|([]&_)]. exact H.
    + intros ? ? ? [].
  - destruct (nth_error cs n) as [p|] eqn:Np; [|discriminate]. destruct (in_col i p) as [vals|] eqn:Ec; [|discriminate].
    destruct (texts vals) as [ts|] eqn:Et; [|discriminate].
    destruct (fold_meet m ts Sm [] ksorted_nil) as (A&B&D). cbv zeta in A, B, D.
    destruct (IH _ _ _ _ A E) as (A2&B2&D2&E2). destruct (texts_in vals ts Et) as (T1&T2). split; [exact A2|]. split; [|split].
    + intros k v. rewrite B2. split.
      * intros (H&Hall). destruct (B k v H) as [H2|(H2&v'&Hv')]; [discriminate|]. split; [exact H2|].
        intros n1 p1 vals1 [<-|Hn] N1 C1; [|eapply Hall; eauto]. assert (vals1 = vals) as -> by congruence.
        destruct (T2 k v' Hv'). eauto.
      * intros (H&Hall). split; [|intros n1 p1 vals1 Hn; apply Hall; right; exact Hn]. apply D; [exact H|]. right.
        destruct (Hall n p vals (or_introl eq_refl) Np Ec) as (v'&Hv'&Gv'). destruct (T1 v' Hv') as (s&Es&Hs). exists v'.
        assert (s = k) as <- by congruence. exact Hs.
    + intros n1. rewrite D2. destruct (is_in p) eqn:Ip; rewrite ?in_app_iff; cbn [List.In]; split.
      * intros [[H|[<-|[]]]|(H&Hp)]; [auto|right; split; [auto|exists p; auto]|right; auto].
      * intros [H|([<-|H]&Hp)]; auto.
      * intros [H|(H&Hp)]; auto.
      * intros [H|([<-|H]&q&Nq&Iq)]; [auto|congruence|right; eauto].
    + intros n1 p1 vals1 [<-|Hn] N1 C1; [|eapply E2; eauto]. assert (vals1 = vals) as -> by congruence. eauto.
Qed.

Lemma cut_in_ok cs0 i cs cut res : Forall rows_once cs0 -> state Z C cs0 i cs cut ->
  cut_in i (collect i 0 cs0 sp0) cs cut = Some res -> step_ok Z C cs0 i cs cut res.
Proof.
  intros O1 St E. unfold cut_in in E. set (s := collect i 0 cs0 sp0) in *.
  destruct (sp_in s) as [|n q] eqn:Eq; [discriminate|].
  assert (Hall : forall k m, List.In m (lists s k) <-> exists p, nth_error cs0 m = Some p /\ role i p = Some k)
    by (intros; apply collect_in; exact O1).
  assert (Cur : forall k m, List.In m (lists s k) -> exists p0 p, nth_error cs0 m = Some p0 /\ nth_error cs m = Some p /\ evolved i p0 p /\ wt Z C p /\ current i k p /\ ~ List.In m cut).
  { intros k m H. apply Hall in H. destruct H as (p0&N0&R0). destruct (state_nth _ _ _ _ _ _ _ _ St N0) as (p&Np&Ep&Wp).
    exists p0, p. split; [exact N0|]. split; [exact Np|]. split; [exact Ep|]. split; [exact Wp|].
    split; [exact (role_current i k p0 p R0 Ep)|]. eapply role_not_cut; eauto. }
  assert (InN : forall m, List.In m (n :: q) <-> List.In m (lists s Rin)) by (intros m; cbn [lists]; rewrite Eq; reflexivity).
  destruct (Cur Rin n) as (p0&p&N0&Np&Ep&Wp&Cu&NC); [apply InN; left; reflexivity|].
  rewrite Np in E. unfold first_map in E.
  destruct (in_col_ok i p Wp Cu) as (vals&Ec&Ui&Fv&Tv&Tin). rewrite Ec in E.
  destruct (texts vals) as [ts|] eqn:Et; [|discriminate].
  destruct (fold_put ts [] ksorted_nil) as (S0&B0&D0). set (m0 := fold_left (fun (m : kv value) e => kput (fst e) (snd e) m) ts []) in *.
  destruct (meet i cs q m0 cut) as [[m cut1]|] eqn:Em; [|discriminate].
  destruct (meet_ok i cs q m0 cut m cut1 S0 Em) as (Sm&Bm&Dm&Tm).
  destruct (texts_in vals ts Et) as (T1&T2).
  set (bs := sp_lt s ++ sp_gt s) in *.
  assert (Bnd : forall k, List.In k bs -> exists o a v, nth_error cs k = Some (Cmp o a (LSlot i (C i)) v) /\ wt Z C (Cmp o a (LSlot i (C i)) v) /\
                   ~ List.In k cut /\ exists p0, nth_error cs0 k = Some p0 /\ p0 = Cmp o a (LSlot i (C i)) v).
  { intros k Hk. unfold bs in Hk. rewrite in_app_iff in Hk.
    assert (exists kk, List.In k (lists s kk) /\ (kk = Rlt \/ kk = Rgt)) as (kk&Hkk&Kk) by (destruct Hk; [exists Rlt|exists Rgt]; auto).
    destruct (Cur kk k Hkk) as (b0&b&Nb0&Nb&Eb&Wb&Cb&NCb).
    destruct b as [o a x v|x l hn|o xs vs|xs rows hn|e]; cbn [current] in Cb; try contradiction.
    - destruct Cb as (t&->&_). pose proof Wb as (t'&_&_&(Et'&ECi)&_). subst t'. rewrite <- ECi in *.
      exists o, a, v. split; [exact Nb|]. split; [exact Wb|]. split; [exact NCb|]. exists b0. split; [exact Nb0|].
      destruct b0; cbn in Eb; try contradiction. destruct Eb as [Eb|(_&L)]; [congruence|lia].
    - destruct Cb as (t&_&->). destruct Kk; discriminate.
    - destruct Cb as (_&->&_). destruct Kk; discriminate.
    - destruct Cb as (->&_). destruct Kk; discriminate. }
  assert (Lst : forall k, List.In k (n :: q) -> exists pk vk, nth_error cs k = Some pk /\ wt Z C pk /\ current i Rin pk /\ in_col i pk = Some vk /\
                 Forall (colv (C i)) vk /\ ~ List.In k cut /\ (exists tk, texts vk = Some tk)).
  { intros k Hk. destruct (Cur Rin k) as (k0&pk&Nk0&Nk&Ek&Wk&Ck&NCk); [apply InN; exact Hk|].
    destruct (in_col_ok i pk Wk Ck) as (vk&Eck&_&Fk&_). exists pk, vk. split; [exact Nk|]. do 4 (split; [assumption|]). split; [exact NCk|].
    destruct Hk as [<-|Hk]; [|eapply Tm; eauto]. assert (pk = p) as -> by congruence. assert (vk = vals) as -> by congruence. eauto. }
  (* a value of the map *)
  assert (Mv : forall k v, kget k m = Some v -> get_string v = Some k /\ colv (C i) v /\
            forall n' p' vals', List.In n' (n :: q) -> nth_error cs n' = Some p' -> in_col i p' = Some vals' -> exists v', List.In v' vals' /\ get_string v' = Some k).
  { intros k v H. apply Bm in H. destruct H as (H&Hq). destruct (B0 k v H) as [D|Hin]; [discriminate|]. destruct (T2 k v Hin) as (Gv&Iv).
    rewrite Forall_forall in Fv. split; [exact Gv|]. split; [apply Fv; exact Iv|].
    intros n' p' vals' [<-|Hn'] Np' Ec'; [|eapply Hq; eauto]. assert (p' = p) as -> by congruence. assert (vals' = vals) as -> by congruence. eauto. }
  (* live: a key is kept *)
  assert (KeyA : forall r, row_fz Z C r -> live r cs cut -> exists k v, kget k m = Some v /\ eqv2 (r i) v /\
            forall n' p' vals', List.In n' (n :: q) -> nth_error cs n' = Some p' -> in_col i p' = Some vals' ->
               forall v', List.In v' vals' -> eqv2 (r i) v' -> get_string v' = Some k).
  { intros r R Lv. assert (Tp : TRUE r p) by (eapply Lv; eauto). destruct (Tv r R Tp) as (v1&Hv1&Q1).
    rewrite Forall_forall in Fv. destruct (T1 v1 Hv1) as (k&Gk&Hk).
    assert (Tx : forall n' p' vals', List.In n' (n :: q) -> nth_error cs n' = Some p' -> in_col i p' = Some vals' ->
               forall v', List.In v' vals' -> eqv2 (r i) v' -> get_string v' = Some k).
    { intros n' p' vals' Hn' Np' Ec' v' Hv' Q'. destruct (Lst n' Hn') as (pk&vk&Nk&Wk&Ck&Eck&Fk&NCk&tk&Etk).
      assert (pk = p') as -> by congruence. assert (vk = vals') as -> by congruence. rewrite Forall_forall in Fk.
      destruct (texts_in vals' tk Etk) as (U1&_). destruct (U1 v' Hv') as (s'&Gs'&_). rewrite Gs'. f_equal. symmetry.
      apply (text_eq (C i) (r i) v1 v' k s'); auto. }
    destruct (kget k m0) as [v0|] eqn:E0; [|exfalso; eapply D0; [right; eexists; exact Hk|exact E0]].
    assert (Hm : kget k m = Some v0).
    { apply Bm. split; [exact E0|]. intros n' p' vals' Hn' Np' Ec'.
      destruct (Lst n' (or_intror Hn')) as (pk&vk&Nk&Wk&Ck&Eck&Fk&NCk&_).
      assert (pk = p') as -> by congruence. assert (vk = vals') as -> by congruence.
      assert (Tk : TRUE r p') by (eapply Lv; eauto).
      destruct (in_col_ok i p' Wk Ck) as (v2&Ec2&_&_&Tv2&_). assert (v2 = vals') as -> by congruence.
      destruct (Tv2 r R Tk) as (v'&Hv'&Q'). exists v'. split; [exact Hv'|]. eapply (Tx n' p' vals'); eauto. right. exact Hn'. }
    exists k, v0. split; [exact Hm|]. split; [|exact Tx]. destruct (Mv k v0 Hm) as (G0&C0&_).
    apply (text_eq (C i) (r i) v1 v0 k k); auto. }
  assert (Cut1 : Forall (fun n => exists p0, nth_error cs0 n = Some p0 /\ match p0 with Cmp _ _ x _ | In x _ _ => (leaf_top x <= S i)%nat | _ => False end) (cut1 ++ bs)).
  { rewrite Forall_forall. intros k Hk. rewrite in_app_iff in Hk. destruct Hk as [Hk|Hk].
    - apply Dm in Hk. destruct Hk as [Hk|(Hq&pk&Nk&Ik)].
      + destruct (state_mono _ _ _ _ _ _ St) as (_&_&F). rewrite Forall_forall in F. apply F. exact Hk.
      + destruct (Cur Rin k) as (k0&pk2&Nk0&Nk2&Ek&Wk&Ck&NCk); [apply InN; right; exact Hq|]. assert (pk2 = pk) as -> by congruence.
        exists k0. split; [exact Nk0|]. destruct pk; try discriminate. destruct k0; cbn in Ek; try contradiction.
        destruct Ck as (t&->&_). destruct Ek as [Ek|(_&L)]; [injection Ek as <- <- <-; cbn; lia|cbn in L; lia].
    - destruct (Bnd k Hk) as (o&a&v&_&_&_&b0&Nb0&->). exists (Cmp o a (LSlot i (C i)) v). split; [exact Nb0|cbn; lia]. }
  destruct m as [|m1 mr] eqn:Emm.
  { injection E as <-. cbn [step_ok]. intros r R Lv. destruct (KeyA r R Lv) as (k&v&Hk&_). discriminate. }
  rewrite <- Emm in *. clear Emm m1 mr.
  destruct (keep_keys cs bs m) as [keep|] eqn:Ekk; [|discriminate].
  destruct (keep_keys_in cs bs m keep Ekk) as (KK&KD).
  assert (AH : forall k v r, kget k m = Some v -> row_fz Z C r -> eqv2 (r i) v ->
            (List.In k keep <-> forall n' p', List.In n' bs -> nth_error cs n' = Some p' -> TRUE r p')).
  { intros k v r Hk R Q. destruct (Mv k v Hk) as (_&(Fz&_)&_). assert (Hin : List.In (k, v) m) by (apply kget_in; auto).
    destruct (KD k v Hin) as (b&Hb).
    assert (Bn : forall n', List.In n' bs -> exists o a v0, nth_error cs n' = Some (Cmp o a (LSlot i (C i)) v0) /\ wt Z C (Cmp o a (LSlot i (C i)) v0)).
    { intros n' H. destruct (Bnd n' H) as (o&a&v0&A1&A2&_). eauto. }
    rewrite <- (all_hold_ok i cs v bs b Ui Fz Hb Bn r R Q), KK. split.
    - intros (v'&Hv'&Hh). apply kget_in in Hv'; [|exact Sm]. assert (v' = v) as -> by congruence. congruence.
    - intros ->. eauto. }
  assert (KeyB : forall r, row_fz Z C r -> live r cs cut -> exists k v, kget k m = Some v /\ List.In k keep /\ eqv2 (r i) v /\
            forall n' p' vals', List.In n' (n :: q) -> nth_error cs n' = Some p' -> in_col i p' = Some vals' ->
               forall v', List.In v' vals' -> eqv2 (r i) v' -> get_string v' = Some k).
  { intros r R Lv. destruct (KeyA r R Lv) as (k&v&Hk&Q&Tx). exists k, v. split; [exact Hk|]. split; [|split; assumption].
    apply (AH k v r Hk R Q). intros n' p' Hn' Np'. destruct (Bnd n' Hn') as (o&a&v0&_&_&NCn&_). eapply Lv; eauto. }
  destruct keep as [|k1 kr] eqn:Ekeep.
  { injection E as <-. cbn [step_ok]. intros r R Lv. destruct (KeyB r R Lv) as (k&v&_&[]&_). }
  rewrite <- Ekeep in *.
  set (ns := n :: filter (fun k => match nth_error cs k with Some p' => negb (is_in p') | None => false end) q) in *.
  assert (res = Go (trim_all i keep ns cs) (cut1 ++ bs)) as -> by (clear - E; congruence). clear E.
  assert (Nns : forall k, List.In k ns -> List.In k (n :: q)).
  { intros k [<-|H]; [left; reflexivity|right]. apply filter_In in H. apply H. }
  assert (NDns : NoDup ns).
  { pose proof (collect_nodup i Rin cs0 O1) as ND. fold s in ND. cbn [lists] in ND. rewrite Eq in ND. inversion ND; subst.
    unfold ns. constructor; [|apply NoDup_filter; assumption]. intros H. apply filter_In in H. tauto. }
  assert (Trim : forall k, List.In k ns -> exists pk vk, nth_error cs k = Some pk /\ in_col i pk = Some vk /\ wt Z C pk /\ current i Rin pk /\
            exists v, List.In v vk /\ kept keep v = true).
  { intros k Hk. destruct (Lst k (Nns k Hk)) as (pk&vk&Nk&Wk&Ck&Eck&Fk&NCk&_). exists pk, vk. do 4 (split; [assumption|]).
    assert (H1 : List.In k1 keep) by (rewrite Ekeep; left; reflexivity). apply KK in H1. destruct H1 as (v1&Hv1&_).
    apply kget_in in Hv1; [|exact Sm]. destruct (Mv k1 v1 Hv1) as (_&_&Hm). destruct (Hm k pk vk (Nns k Hk) Nk Eck) as (v'&Hv'&Gv').
    exists v'. split; [exact Hv'|]. unfold kept. rewrite Gv'. apply existsb_exists. exists k1. split; [rewrite Ekeep; left; reflexivity|]. apply beqb_eq. reflexivity. }
  assert (inns : forall k, existsb (Nat.eqb k) ns = true <-> List.In k ns).
  { intros k. rewrite existsb_exists. split; [intros (y&Hy&Ey); apply Nat.eqb_eq in Ey; subst; exact Hy|intros H; exists k; split; [exact H|apply Nat.eqb_refl]]. }
  cbn [step_ok]. split.
  - split; [|split; [|exact Cut1]].
    + apply F2_of_nth. intros k. rewrite trim_all_nth by exact NDns. destruct St as (Ev&_&_). pose proof (F2_nth _ _ _ Ev k) as Hk.
      destruct (existsb (Nat.eqb k) ns) eqn:Ex.
      * apply inns in Ex. destruct (Trim k Ex) as (pk&vk&Nk&Eck&Wk&Ck&_). rewrite Nk in *. destruct (nth_error cs0 k); [|contradiction].
        cbn. apply trim_evolved; assumption.
      * destruct (nth_error cs0 k), (nth_error cs k); auto. eapply evolved_mono; [|exact Hk]. lia.
    + rewrite Forall_forall. intros x Hx. apply In_nth_error in Hx. destruct Hx as (k&Hk). rewrite trim_all_nth in Hk by exact NDns.
      destruct St as (_&W&_). destruct (existsb (Nat.eqb k) ns) eqn:Ex.
      * apply inns in Ex. destruct (Trim k Ex) as (pk&vk&Nk&Eck&Wk&Ck&Hv). rewrite Nk in Hk. injection Hk as <-.
        destruct (trim_ok i keep pk vk Wk Ck Eck Hv) as (A&_). exact A.
      * eapply nth_F; eauto.
  - intros r R. split.
    + intros Lv k x Nx NCx. rewrite in_app_iff in NCx. rewrite Dm in NCx. rewrite trim_all_nth in Nx by exact NDns.
      destruct (existsb (Nat.eqb k) ns) eqn:Ex.
      * apply inns in Ex. destruct (Trim k Ex) as (pk&vk&Nk&Eck&Wk&Ck&Hv). rewrite Nk in Nx. injection Nx as <-.
        destruct (trim_ok i keep pk vk Wk Ck Eck Hv) as (_&_&A). apply A; [exact R|eapply Lv; eauto|].
        intros v' Hv' Q'. destruct (KeyB r R Lv) as (kk&vv&Hkk&Ik&_&Tx). unfold kept.
        rewrite (Tx k pk vk (Nns k Ex) Nk Eck v' Hv' Q'). apply existsb_exists. exists kk. split; [exact Ik|apply beqb_eq; reflexivity].
      * eapply Lv; eauto.
    + intros Lv.
      assert (Ex : existsb (Nat.eqb n) ns = true) by (apply inns; left; reflexivity).
      assert (In_n : List.In n ns) by (left; reflexivity).
      destruct (Trim n In_n) as (pn&vn&Nn&Ecn&Wn&Cn&Hvn). assert (pn = p) as -> by congruence. assert (vn = vals) as -> by congruence.
      destruct (trim_ok i keep p vals Wp Cu Ec Hvn) as (_&Back&_).
      assert (NCn : ~ List.In n (cut1 ++ bs)).
      { rewrite in_app_iff, Dm. intros [[H|(H&_)]|H]; [contradiction| |].
        - pose proof (collect_nodup i Rin cs0 O1) as ND. fold s in ND. cbn [lists] in ND. rewrite Eq in ND. inversion ND; subst. contradiction.
        - destruct (Bnd n H) as (o&a&v&Nb&_). assert (p = Cmp o a (LSlot i (C i)) v) by congruence. subst p.
          cbn in Cu. destruct Cu as (t&_&K). destruct o; try discriminate; try contradiction. }
      assert (Tn : TRUE r (trim i keep p)).
      { eapply Lv; [|exact NCn]. rewrite trim_all_nth by exact NDns. rewrite Ex, Np. reflexivity. }
      destruct (Back r R Tn) as (Tp&v1&Hv1&K1&Q1).
      unfold kept in K1. destruct (get_string v1) as [k|] eqn:G1; [|discriminate]. apply existsb_exists in K1. destruct K1 as (k'&Hk'&Ek').
      apply beqb_eq in Ek'. subst k'. pose proof Hk' as Hk2. apply KK in Hk2. destruct Hk2 as (v0&Hv0&_). apply kget_in in Hv0; [|exact Sm].
      destruct (Mv k v0 Hv0) as (G0&C0&Hm).
      assert (Q0 : eqv2 (r i) v0).
      { rewrite Forall_forall in Fv. apply (text_eq (C i) (r i) v1 v0 k k); auto. }
      intros k2 x Nx NCx.
      destruct (in_dec Nat.eq_dec k2 (cut1 ++ bs)) as [Hin|Hout].
      * rewrite in_app_iff in Hin. destruct Hin as [Hin|Hin].
        -- apply Dm in Hin. destruct Hin as [Hin|(Hq&pk&Nk&Ik)]; [contradiction|]. assert (pk = x) as -> by congruence.
           destruct (Lst k2 (or_intror Hq)) as (px&vx&Nk2&Wk&Ck&Eck&Fk&_). assert (px = x) as -> by congruence.
           destruct (in_col_ok i x Wk Ck) as (vx2&Ec2&_&_&_&Tin2). assert (vx2 = vx) as -> by congruence.
           apply (Tin2 Ik r R). destruct (Hm k2 x vx (or_intror Hq) Nx Eck) as (v'&Hv'&G'). exists v'. split; [exact Hv'|].
           rewrite Forall_forall in Fk, Fv. apply (text_eq (C i) (r i) v1 v' k k); auto.
        -- apply (proj1 (AH k v0 r Hv0 R Q0) Hk' k2 x Hin Nx).
      * destruct (existsb (Nat.eqb k2) ns) eqn:Ex2.
        -- apply inns in Ex2. destruct (Trim k2 Ex2) as (pk&vk&Nk&Eck&Wk&Ck&Hv). assert (pk = x) as -> by congruence.
           destruct (trim_ok i keep x vk Wk Ck Eck Hv) as (_&B2&_). apply (B2 r R). eapply Lv; [|exact Hout].
           rewrite trim_all_nth by exact NDns. apply inns in Ex2. rewrite Ex2, Nk. reflexivity.
        -- eapply Lv; [|exact Hout]. rewrite trim_all_nth by exact NDns. rewrite Ex2. exact Nx.
Qed.
End Step.
