(* The top-n sorter returns the first rows of the stable sort. *)
From Coq Require Import ZArith List Bool Permutation Sorted Lia.
From Verif Require Import Sort.Model Sort.Spec Sort.ProofsHeap.
Import ListNotations.
Local Open Scope Z_scope.

Lemma nodup_l {B} (a b : list B) : NoDup (a ++ b) -> NoDup a.
Proof.
  induction a as [|x a IH]; [constructor|]. cbn. inversion 1; subst. constructor; auto.
  intros H4. apply H2. apply in_or_app. auto.
Qed.
Lemma nodup_r {B} (a b : list B) : NoDup (a ++ b) -> NoDup b.
Proof. induction a as [|x a IH]; [auto|]. cbn. inversion 1; subst. auto. Qed.

Section TopN.
  Context {A : Type}.
  Variable cmp : A -> A -> Z.
  Variable P : A -> Prop.
  Hypothesis O : orders P cmp.

  Lemma anti a b : P a -> P b -> cmp a b < 0 <-> 0 < cmp b a.
  Proof. apply O. Qed.
  Lemma level a b : P a -> P b -> cmp a b = 0 -> cmp b a = 0.
  Proof. intros Pa Pb E. pose proof (anti a b Pa Pb). pose proof (anti b a Pb Pa). lia. Qed.
  Lemma cmp_refl a : P a -> cmp a a = 0.
  Proof. intros Pa. pose proof (anti a a Pa Pa). lia. Qed.
  Lemma total a b : P a -> P b -> cmp a b <= 0 \/ cmp b a < 0.
  Proof. intros Pa Pb. pose proof (anti b a Pb Pa). lia. Qed.
  Lemma letrans a b c : P a -> P b -> P c -> cmp a b <= 0 -> cmp b c <= 0 -> cmp a c <= 0.
  Proof. apply O. Qed.
  Lemma lt_le_trans a b c : P a -> P b -> P c -> cmp a b < 0 -> cmp b c <= 0 -> cmp a c < 0.
  Proof.
    intros Pa Pb Pc H1 H2. destruct (Z.lt_ge_cases (cmp a c) 0) as [|G]; [assumption|exfalso].
    assert (cmp c a <= 0) by (pose proof (anti c a Pc Pa); pose proof (anti a c Pa Pc); lia).
    pose proof (letrans b c a Pb Pc Pa H2 H). pose proof (anti a b Pa Pb). lia.
  Qed.
  Lemma le_lt_trans a b c : P a -> P b -> P c -> cmp a b <= 0 -> cmp b c < 0 -> cmp a c < 0.
  Proof.
    intros Pa Pb Pc H1 H2. destruct (Z.lt_ge_cases (cmp a c) 0) as [|G]; [assumption|exfalso].
    assert (cmp c a <= 0) by (pose proof (anti c a Pc Pa); pose proof (anti a c Pa Pc); lia).
    pose proof (letrans c a b Pc Pa Pb H H1). pose proof (anti b c Pb Pc). lia.
  Qed.

  (* items: rows with distinct numbers, totally ordered *)
  Definition lt (x y : item (A := A)) : Prop := item_less cmp x y = true.
  Definition PI (x : item (A := A)) : Prop := P (fst x).

  Lemma lt_iff x y : lt x y <-> cmp (fst x) (fst y) < 0 \/ (cmp (fst x) (fst y) = 0 /\ snd x < snd y).
  Proof.
    unfold lt, item_less. destruct (Z.ltb_spec (cmp (fst x) (fst y)) 0); [intuition|].
    destruct (Z.eqb_spec (cmp (fst x) (fst y)) 0), (Z.ltb_spec (snd x) (snd y)); cbn; intuition (lia || discriminate).
  Qed.
  Lemma lt_irrefl x : PI x -> ~ lt x x.
  Proof. intros Px H. apply lt_iff in H. pose proof (cmp_refl _ Px). lia. Qed.
  Lemma lt_trans x y z : PI x -> PI y -> PI z -> lt x y -> lt y z -> lt x z.
  Proof.
    intros Px Py Pz H1 H2. apply lt_iff in H1, H2. apply lt_iff.
    destruct H1 as [H1|[H1 I1]].
    - left. eapply lt_le_trans; [| | |exact H1|]; auto. lia.
    - destruct H2 as [H2|[H2 I2]].
      + left. eapply le_lt_trans; [| | | |exact H2]; auto. lia.
      + right. split; [|lia].
        assert (cmp (fst x) (fst z) <= 0) by (apply (letrans _ (fst y)); auto; lia).
        assert (cmp (fst z) (fst x) <= 0) by (apply (letrans _ (fst y)); auto; pose proof (level _ _ Px Py H1); pose proof (level _ _ Py Pz H2); lia).
        pose proof (anti (fst x) (fst z) Px Pz). lia.
  Qed.
  Lemma lt_total x y : PI x -> PI y -> snd x <> snd y -> lt x y \/ lt y x.
  Proof.
    intros Px Py N. rewrite !lt_iff. pose proof (anti (fst x) (fst y) Px Py). pose proof (anti (fst y) (fst x) Py Px). lia.
  Qed.
  Lemma lt_asym x y : PI x -> PI y -> lt x y -> ~ lt y x.
  Proof. intros Px Py H1 H2. apply (lt_irrefl x Px). apply (lt_trans x y x); auto. Qed.

  Lemma before_asym x y : PI x -> PI y -> item_before cmp x y = true -> ProofsHeap.le (item_before cmp) x y.
  Proof.
    intros Px Py H. unfold ProofsHeap.le, item_before in *. destruct (item_less cmp x y) eqn:E; [|reflexivity].
    exfalso. exact (lt_asym x y Px Py E H).
  Qed.
  Lemma not_lt_iff x y : PI x -> PI y -> item_less cmp x y = false <-> 0 < cmp (fst x) (fst y) \/ (cmp (fst x) (fst y) = 0 /\ snd y <= snd x).
  Proof.
    intros Px Py. pose proof (lt_iff x y) as H. unfold lt in H. destruct (item_less cmp x y); [|intuition lia].
    destruct H as [H _]. specialize (H eq_refl). split; [discriminate|]. lia.
  Qed.
  Lemma before_trans x y z : PI x -> PI y -> PI z ->
    ProofsHeap.le (item_before cmp) x y -> ProofsHeap.le (item_before cmp) y z -> ProofsHeap.le (item_before cmp) x z.
  Proof.
    unfold ProofsHeap.le, item_before. intros Px Py Pz. rewrite !not_lt_iff by assumption.
    intros H1 H2.
    assert (R : forall a b, P a -> P b -> 0 < cmp a b <-> cmp b a < 0) by (intros; symmetry; apply anti; assumption).
    unfold PI in *. rewrite (R (fst x) (fst z)), (R (fst x) (fst y)) in * by assumption. rewrite (R (fst y) (fst z)) in * by assumption.
    destruct H1 as [H1|[H1 I1]].
    - left. eapply (le_lt_trans _ (fst y)); eauto.
      destruct H2 as [H2|[H2 _]]; [lia|]. pose proof (level _ _ Py Pz H2). lia.
    - destruct H2 as [H2|[H2 I2]].
      + left. eapply (lt_le_trans _ (fst y)); eauto. pose proof (level _ _ Px Py H1). lia.
      + right. split; [|lia].
        assert (cmp (fst x) (fst z) <= 0) by (apply (letrans _ (fst y)); auto; lia).
        assert (cmp (fst z) (fst x) <= 0) by (apply (letrans _ (fst y)); auto; pose proof (level _ _ Px Py H1); pose proof (level _ _ Py Pz H2); lia).
        pose proof (anti (fst x) (fst z) Px Pz). lia.
  Qed.

  (* ---- the invariant of add_batch ---- *)

  (* the rows seen so far, numbered from k *)
  Fixpoint number (k : Z) (l : list A) : list item :=
    match l with [] => [] | r :: t => (r, k) :: number (k + 1) t end.

  Lemma number_app k l l' : number k (l ++ l') = number k l ++ number (k + Z.of_nat (length l)) l'.
  Proof.
    revert k. induction l as [|a l IH]; intros k; cbn [app number length]; [f_equal; lia|].
    rewrite IH. do 3 f_equal. lia.
  Qed.
  Lemma number_snd k l x : In x (number k l) -> k <= snd x < k + Z.of_nat (length l).
  Proof.
    revert k. induction l as [|a l IH]; intros k; cbn [number length In]; [tauto|].
    intros [<-|H]; [cbn; lia|]. apply IH in H. lia.
  Qed.
  Lemma number_fst k l : map fst (number k l) = l.
  Proof. revert k. induction l as [|a l IH]; intros k; cbn; [reflexivity|]. rewrite IH. reflexivity. Qed.
  Lemma number_P k l : Forall P l -> Forall PI (number k l).
  Proof. intros F. revert k. induction F; intros k; cbn [number]; constructor; auto. Qed.

  Definition inv (n : nat) (items heap : list item) : Prop :=
    is_heap (item_before cmp) heap /\
    exists rest, Permutation items (heap ++ rest) /\
      (forall x y, In x heap -> In y rest -> lt x y) /\
      (length heap <= n)%nat /\ (rest = [] \/ length heap = n).

  Lemma P_of items heap rest : Forall PI items -> Permutation items (heap ++ rest) -> Forall PI heap /\ Forall PI rest.
  Proof. intros F Pm. apply Forall_app. eapply Forall_perm; eauto. Qed.

  Lemma distinct items x y l l' : NoDup (map (@snd A Z) items) -> Permutation items (l ++ x :: l') -> In y (l ++ l') -> snd x <> snd y.
  Proof.
    intros ND Pm Hy E. apply (Permutation_map (@snd A Z)) in Pm. apply (Permutation_NoDup Pm) in ND.
    rewrite map_app in ND. cbn [map] in ND. apply NoDup_remove_2 in ND. apply ND. rewrite <- map_app, E. apply in_map. exact Hy.
  Qed.

  Lemma inv_add n items s row :
    (1 <= n)%nat -> Forall PI items -> P row -> NoDup (map snd items) ->
    (forall x, In x items -> snd x <= current_idx s) ->
    inv n items (heap s) ->
    exists s', topn_add cmp false (Z.of_nat n) s row = Some s' /\ current_idx s' = current_idx s + 1 /\
      inv n (items ++ [(row, current_idx s + 1)]) (heap s').
  Proof.
    intros Hn F Pr ND Hidx (Hh&rest&Pm&Hlt&Hle&Hr). unfold topn_add.
    destruct (P_of _ _ _ F Pm) as [Fh Fr].
    set (new := (row, current_idx s + 1)).
    assert (Pn : PI new) by exact Pr.
    assert (Nin : forall x, In x (heap s ++ rest) -> snd x < snd new).
    { intros x Hx. apply (Permutation_in _ (Permutation_sym Pm)) in Hx. apply Hidx in Hx. cbn. lia. }
    destruct (Z.ltb_spec (Z.of_nat (length (heap s))) (Z.of_nat n)) as [L|L].
    - eexists. split; [reflexivity|]. split; [reflexivity|]. cbn [heap].
      destruct Hr as [->|Hr]; [|lia]. rewrite app_nil_r in Pm.
      destruct (push (item_before cmp) PI before_asym before_trans (heap s) new) as [G1 G2]; [apply Forall_app; auto|exact Hh|].
      split; [exact G1|]. exists []. rewrite app_nil_r. split; [|split; [intros ? ? ? []|split; [|left; reflexivity]]].
      + rewrite <- G2. apply Permutation_app_tail. exact Pm.
      + eapply Nat.le_trans; [apply Nat.eq_le_incl; symmetry; exact (Permutation_length G2)|]. rewrite app_length. cbn. lia.
    - destruct (heap s) as [|top hrest] eqn:EH; [cbn in L; lia|].
      inversion Fh as [|? ? Pt Fh']; subst. rewrite Forall_forall in Fh'. rewrite Forall_forall in Fr.
      assert (Hroot : forall x, In x hrest -> lt x top).
      { intros x Hx. pose proof Hx as Hin. apply In_nth_error in Hx as (j&Hj).
        pose proof (heap_root (item_before cmp) PI before_asym before_trans (top :: hrest) (S j) Fh Hh) as R.
        rewrite (ord_at _ _ _ _ top x) in R by (auto; exact Hj). unfold ProofsHeap.le, item_before in R.
        destruct (lt_total x top) as [|B]; auto; [|unfold lt in B; congruence].
        intros E. apply (distinct items top x [] (hrest ++ rest) ND Pm); [cbn; apply in_or_app; auto|congruence]. }
      destruct (less cmp row (fst top)) eqn:E.
      + (* replaces the root *)
        unfold less in E. apply Z.ltb_lt in E.
        assert (Lnt : lt new top) by (apply lt_iff; left; exact E).
        eexists. split; [reflexivity|]. split; [reflexivity|]. cbn [heap length].
        destruct (replace_root (item_before cmp) PI before_asym before_trans top new hrest) as [G1 G2];
          [constructor; [exact Pn|rewrite Forall_forall; exact Fh']|exact Hh|].
        split; [exact G1|]. exists (top :: rest). split; [|split; [|split]].
        * etransitivity; [apply Permutation_app_comm|]. cbn [app].
          etransitivity; [apply perm_skip; exact Pm|]. cbn [app].
          transitivity ((new :: hrest) ++ top :: rest).
          -- cbn [app]. apply perm_skip. apply Permutation_middle.
          -- apply Permutation_app_tail. exact G2.
        * intros x y Hx Hy. apply (Permutation_in _ (Permutation_sym G2)) in Hx.
          destruct Hy as [<-|Hy]; destruct Hx as [<-|Hx]; auto.
          -- apply (lt_trans new top y); auto. apply Hlt; [left; reflexivity|exact Hy].
          -- apply Hlt; [right; exact Hx|exact Hy].
        * eapply Nat.le_trans; [apply Nat.eq_le_incl; symmetry; exact (Permutation_length G2)|]. exact Hle.
        * right. etransitivity; [symmetry; exact (Permutation_length G2)|]. cbn [length] in *. lia.
      + unfold less in E. apply Z.ltb_ge in E.
        eexists. split; [reflexivity|]. split; [reflexivity|]. cbn [heap].
        split; [exact Hh|]. exists (rest ++ [new]). split; [|split; [|split]].
        * rewrite app_assoc. apply Permutation_app_tail. exact Pm.
        * assert (Lt : lt top new).
          { apply lt_iff. cbn [fst snd new]. pose proof (anti (fst top) row Pt Pr). pose proof (anti row (fst top) Pr Pt).
            pose proof (Nin top ltac:(left; reflexivity)) as X. cbn [snd new] in X. lia. }
          intros x y Hx Hy. apply in_app_or in Hy. destruct Hy as [Hy|[<-|[]]]; [apply Hlt; assumption|].
          destruct Hx as [<-|Hx]; [exact Lt|]. apply (lt_trans x top new); auto.
        * exact Hle.
        * right. cbn [length] in *. lia.
  Qed.

  Lemma number_nodup k l : NoDup (map snd (number k l)).
  Proof.
    revert k. induction l as [|a l IH]; intros k; cbn [number map]; constructor; auto.
    intros H. apply in_map_iff in H as (x&E&Hx). apply number_snd in Hx. cbn [snd] in E. lia.
  Qed.

  Lemma inv_add_all n : (1 <= n)%nat -> forall rows seen s,
    Forall P (seen ++ rows) -> current_idx s = Z.of_nat (length seen) -> inv n (number 1 seen) (heap s) ->
    exists s', topn_add_all cmp false (Z.of_nat n) s rows = Some s' /\ inv n (number 1 (seen ++ rows)) (heap s').
  Proof.
    intros Hn. induction rows as [|r rows IH]; intros seen s F Hc Hi; cbn [topn_add_all].
    - exists s. rewrite app_nil_r. auto.
    - pose proof F as F0. apply Forall_app in F as [Fs Fr]. inversion Fr as [|? ? Pr Fr']; subst.
      destruct (inv_add n (number 1 seen) s r Hn) as (s'&E&Hc'&Hi'); auto.
      + apply number_P; exact Fs.
      + apply number_nodup.
      + intros x Hx. apply number_snd in Hx. lia.
      + rewrite E. destruct (IH (seen ++ [r]) s') as (s2&E2&Hi2).
        * rewrite <- app_assoc. exact F0.
        * rewrite app_length. cbn [length]. lia.
        * rewrite number_app. cbn [number]. rewrite Hc in Hi'.
          replace (1 + Z.of_nat (length seen)) with (Z.of_nat (length seen) + 1) by lia. exact Hi'.
        * exists s2. split; [exact E2|]. rewrite <- app_assoc in Hi2. exact Hi2.
  Qed.

  (* ---- sorted lists of items ---- *)

  Lemma sorted_unique l : forall l', Forall PI l -> StronglySorted lt l -> StronglySorted lt l' -> Permutation l l' -> l = l'.
  Proof.
    induction l as [|x l IH]; intros l' F S1 S2 Pm.
    - apply Permutation_nil in Pm. congruence.
    - destruct l' as [|y l']; [apply Permutation_sym, Permutation_nil in Pm; discriminate|].
      inversion S1 as [|? ? S1' F1]; subst. inversion S2 as [|? ? S2' F2]; subst.
      rewrite Forall_forall in F, F1, F2.
      assert (x = y) as <-.
      { pose proof (Permutation_in _ Pm (or_introl eq_refl)) as Hx.
        pose proof (Permutation_in _ (Permutation_sym Pm) (or_introl eq_refl)) as Hy.
        destruct Hx as [|Hx]; [congruence|]. destruct Hy as [|Hy]; [congruence|].
        exfalso. apply (lt_asym x y); auto; [apply F; left; reflexivity|apply F; right; exact Hy]. }
      f_equal. apply IH; auto.
      + rewrite Forall_forall. intros z Hz. apply F. right. exact Hz.
      + apply Permutation_cons_inv in Pm. exact Pm.
  Qed.

  Definition icmp (x y : item) : Z := cmp (fst x) (fst y).

  Lemma insert_perm {B} (c : B -> B -> Z) x l : Permutation (x :: l) (insert c x l).
  Proof.
    induction l as [|y l IH]; cbn [insert]; [reflexivity|]. destruct (c x y <=? 0); [reflexivity|].
    rewrite <- IH. apply perm_swap.
  Qed.
  Lemma stable_perm {B} (c : B -> B -> Z) l : Permutation l (stable_sort c l).
  Proof. induction l as [|x l IH]; cbn [stable_sort]; [reflexivity|]. rewrite <- insert_perm. constructor. exact IH. Qed.

  Lemma insert_fst x l : map fst (insert icmp x l) = insert cmp (fst x) (map fst l).
  Proof.
    induction l as [|y l IH]; cbn [insert map]; [reflexivity|]. unfold icmp. destruct (cmp (fst x) (fst y) <=? 0); cbn [map]; [reflexivity|].
    fold icmp. rewrite IH. reflexivity.
  Qed.
  Lemma stable_fst l : map fst (stable_sort icmp l) = stable_sort cmp (map fst l).
  Proof. induction l as [|x l IH]; cbn [stable_sort map]; [reflexivity|]. rewrite insert_fst, IH. reflexivity. Qed.

  Lemma insert_sorted x l : PI x -> Forall PI l -> (forall y, In y l -> snd x < snd y) -> StronglySorted lt l -> StronglySorted lt (insert icmp x l).
  Proof.
    intros Px F Hs S1. induction l as [|y l IH]; cbn [insert].
    - constructor; constructor.
    - inversion S1 as [|? ? S1' F1]; subst. inversion F as [|? ? Py F']; subst.
      destruct (Z.leb_spec (icmp x y) 0) as [L|L]; unfold icmp in L.
      + assert (Lxy : lt x y) by (apply lt_iff; pose proof (Hs y (or_introl eq_refl)); lia).
        constructor; [exact S1|]. constructor; [exact Lxy|]. rewrite Forall_forall in *. intros z Hz.
        apply (lt_trans x y z); auto.
      + constructor.
        * apply IH; auto. intros z Hz. apply Hs. right. exact Hz.
        * rewrite Forall_forall in *. intros z Hz. apply (Permutation_in _ (Permutation_sym (insert_perm icmp x l))) in Hz.
          destruct Hz as [<-|Hz]; [|apply F1; exact Hz]. apply lt_iff. left. apply anti; auto.
  Qed.
  Lemma stable_sorted k l : Forall P l -> StronglySorted lt (stable_sort icmp (number k l)).
  Proof.
    intros F. revert k. induction F as [|r l Pr F IH]; intros k; cbn [number stable_sort]; [constructor|].
    apply insert_sorted; auto.
    - eapply Forall_perm; [apply stable_perm|]. apply number_P. exact F.
    - intros y Hy. apply (Permutation_in _ (Permutation_sym (stable_perm icmp _))) in Hy. apply number_snd in Hy. cbn [snd]. lia.
  Qed.

  Lemma std_sorted l l' : Forall PI l -> NoDup (map snd l) -> std_sort (item_less cmp) l l' -> StronglySorted lt l'.
  Proof.
    intros F ND [Pm Hs]. assert (F' : Forall PI l') by (eapply Forall_perm; eauto).
    assert (ND' : NoDup (map snd l')) by (eapply Permutation_NoDup; [apply Permutation_map; exact Pm|exact ND]).
    clear F ND Pm. induction l' as [|x l' IH]; constructor.
    - inversion F'; subst. inversion ND'; subst. apply IH; auto. intros i j a b Hij Ha Hb.
      apply (Hs (S i) (S j) a b); [lia|exact Ha|exact Hb].
    - rewrite Forall_forall. intros y Hy. inversion F' as [|? ? Px F2]; subst. rewrite Forall_forall in F2.
      inversion ND' as [|? ? Nx _]; subst.
      pose proof Hy as Hy'. apply In_nth_error in Hy as (j&Hj).
      pose proof (Hs 0%nat (S j) x y ltac:(lia) eq_refl Hj) as E.
      destruct (lt_total x y) as [|B]; auto; [|unfold lt in B; congruence].
      intros Eq. apply Nx. rewrite Eq. apply in_map. exact Hy'.
  Qed.

  Lemma sorted_app l l' : Forall PI (l ++ l') -> StronglySorted lt l -> StronglySorted lt l' -> (forall x y, In x l -> In y l' -> lt x y) -> StronglySorted lt (l ++ l').
  Proof.
    intros F S1 S2 H. induction l as [|x l IH]; cbn [app]; [exact S2|].
    inversion S1 as [|? ? S1' F1]; subst. constructor.
    - apply IH; auto; [inversion F; auto|]. intros a b Ha Hb. apply H; [right; exact Ha|exact Hb].
    - apply Forall_app. split; [exact F1|]. rewrite Forall_forall. intros y Hy. apply H; [left; reflexivity|exact Hy].
  Qed.

  (* every list of distinct items has a sorted permutation *)
  Lemma some_sort l : Forall PI l -> NoDup (map snd l) -> exists l', Permutation l l' /\ StronglySorted lt l'.
  Proof.
    intros F ND. induction l as [|x l IH]; [exists []; split; constructor|].
    inversion F as [|? ? Px F']; subst. cbn [map] in ND. inversion ND as [|? ? Nx ND']; subst. destruct (IH F' ND') as (l'&Pm&S1).
    assert (F2 : Forall PI l') by (eapply Forall_perm; eauto).
    assert (N2 : forall y, In y l' -> snd x <> snd y).
    { intros y Hy E. apply Nx. rewrite E. apply in_map. eapply Permutation_in; [symmetry; exact Pm|exact Hy]. }
    assert (G : exists l2, Permutation (x :: l') l2 /\ StronglySorted lt l2).
    { clear - S1 F2 N2 Px O. induction S1 as [|y l' S1' IH F1].
      - exists [x]. split; [reflexivity|repeat constructor].
      - inversion F2 as [|? ? Py F2']; subst. destruct (item_less cmp x y) eqn:E.
        + exists (x :: y :: l'). split; [reflexivity|]. constructor; [constructor; assumption|]. constructor; [exact E|].
          rewrite Forall_forall in *. intros z Hz. apply (lt_trans x y z); auto.
        + destruct IH as (l2&P1&S3); [exact F2'|intros z Hz; apply N2; right; exact Hz|].
          exists (y :: l2). split; [rewrite perm_swap; constructor; exact P1|].
          constructor; [exact S3|]. rewrite Forall_forall in *. intros z Hz. apply (Permutation_in _ (Permutation_sym P1)) in Hz.
          destruct Hz as [<-|Hz]; [|apply F1; exact Hz].
          destruct (lt_total x y) as [B|B]; auto; [apply N2; left; reflexivity|unfold lt in B; congruence]. }
    destruct G as (l2&P2&S2). exists l2. split; [|exact S2]. rewrite <- P2. constructor. exact Pm.
  Qed.

  Theorem topn_ok n rows out : (1 <= n)%nat -> Forall P rows ->
    topn_output cmp false (Z.of_nat n) rows out -> out = firstn n (stable_sort cmp rows).
  Proof.
    intros Hn F (s&v&E&Sv&->).
    destruct (inv_add_all n Hn rows [] topn_init) as (s'&E'&Hi); [exact F|reflexivity| |].
    { split.
      - intros j Hj _. apply ord_out. cbn. lia.
      - exists []. cbn. split; [constructor|]. split; [tauto|]. split; [lia|left; reflexivity]. }
    rewrite E in E'. injection E' as <-. cbn [app] in Hi. destruct Hi as (_&rest&Pm&Hlt&Hle&Hr).
    set (items := number 1 rows) in *.
    assert (FI : Forall PI items) by (apply number_P; exact F).
    destruct (P_of _ _ _ FI Pm) as [Fh Fr].
    assert (ND : NoDup (map snd items)) by apply number_nodup.
    assert (ND2 : NoDup (map snd (heap s ++ rest))) by (eapply Permutation_NoDup; [apply Permutation_map; exact Pm|exact ND]).
    rewrite map_app in ND2. pose proof (nodup_l _ _ ND2) as NDh. pose proof (nodup_r _ _ ND2) as NDr.
    pose proof (std_sorted _ _ Fh NDh Sv) as Ss. destruct Sv as [Pv _].
    destruct (some_sort rest Fr NDr) as (rest'&Pr&Sr).
    assert (EQ : v ++ rest' = stable_sort icmp items).
    { apply sorted_unique.
      - apply Forall_app. split; eapply Forall_perm; eauto.
      - apply sorted_app; auto.
        + apply Forall_app. split; eapply Forall_perm; eauto.
        + intros x y Hx Hy. apply Hlt; eapply Permutation_in; [symmetry; exact Pv|exact Hx|symmetry; exact Pr|exact Hy].
      - apply stable_sorted. exact F.
      - transitivity items; [|apply stable_perm]. rewrite Pm. symmetry. apply Permutation_app; assumption. }
    rewrite <- (number_fst 1 rows) at 1. rewrite <- stable_fst. fold items. rewrite <- EQ, map_app, firstn_app.
    assert (Lv : length v = length (heap s)) by (symmetry; apply Permutation_length; exact Pv).
    destruct Hr as [-> |Hr].
    - apply Permutation_nil in Pr. subst rest'. rewrite firstn_all2 by (rewrite map_length; lia).
      cbn [map]. rewrite firstn_nil, app_nil_r. reflexivity.
    - rewrite map_length, Lv, Hr, Nat.sub_diag. cbn [firstn]. rewrite app_nil_r, firstn_all2 by (rewrite map_length; lia). reflexivity.
  Qed.

  Theorem topn_runs n rows : (1 <= n)%nat -> Forall P rows -> exists out, topn_output cmp false (Z.of_nat n) rows out.
  Proof.
    intros Hn F.
    destruct (inv_add_all n Hn rows [] topn_init) as (s&E&Hi); [exact F|reflexivity| |].
    { split.
      - intros j Hj _. apply ord_out. cbn. lia.
      - exists []. cbn. split; [constructor|]. split; [tauto|]. split; [lia|left; reflexivity]. }
    cbn [app] in Hi. destruct Hi as (_&rest&Pm&_).
    assert (FI : Forall PI (number 1 rows)) by (apply number_P; exact F).
    destruct (P_of _ _ _ FI Pm) as [Fh Fr].
    assert (ND2 : NoDup (map snd (heap s ++ rest))) by (eapply Permutation_NoDup; [apply Permutation_map; exact Pm|apply number_nodup]).
    rewrite map_app in ND2. apply nodup_l in ND2.
    destruct (some_sort (heap s) Fh ND2) as (v&Pv&Sv).
    exists (map fst v), s, v. split; [exact E|]. split; [|reflexivity]. split; [exact Pv|].
    assert (Fv : Forall PI v) by (eapply Forall_perm; eauto). clear - Sv Fv O.
    induction Sv as [|a v Sv IH Fa]; intros i j x y Hij Hx Hy; [destruct i; discriminate|].
    inversion Fv as [|? ? Pa Fv']; subst. destruct i.
    - destruct j; [lia|]. cbn in Hx. injection Hx as <-. rewrite Forall_forall in Fa, Fv'. cbn in Hy. apply nth_error_In in Hy.
      destruct (item_less cmp y a) eqn:E; [|reflexivity]. exfalso. apply (lt_asym a y); auto.
    - destruct j; [lia|]. apply (IH Fv' i j); auto. lia.
  Qed.

  (* without an ordering: the first rows in input order *)
  Lemma topn_plain_all n : forall rows s, (length (heap s) <= n)%nat ->
    exists s', topn_add_all cmp true (Z.of_nat n) s rows = Some s' /\
      map fst (heap s') = map fst (heap s) ++ firstn (n - length (heap s)) rows.
  Proof.
    induction rows as [|r rows IH]; intros s L; cbn [topn_add_all].
    - exists s. rewrite firstn_nil, app_nil_r. auto.
    - unfold topn_add. destruct (Z.ltb_spec (Z.of_nat (length (heap s))) (Z.of_nat n)).
      + destruct (IH {| heap := heap s ++ [(r, current_idx s + 1)]; current_idx := current_idx s + 1 |}) as (s'&E&M).
        { cbn [heap]. rewrite app_length. cbn. lia. }
        exists s'. split; [exact E|]. rewrite M. cbn [heap]. rewrite map_app, <- app_assoc, app_length. cbn [map fst app length].
        replace (n - length (heap s))%nat with (S (n - (length (heap s) + 1))) by lia. reflexivity.
      + destruct (IH {| heap := heap s; current_idx := current_idx s + 1 |}) as (s'&E&M); [exact L|].
        exists s'. split; [exact E|]. rewrite M. cbn [heap]. replace (n - length (heap s))%nat with 0%nat by lia. reflexivity.
  Qed.
  Theorem topn_plain n rows out : topn_output cmp true (Z.of_nat n) rows out <-> out = firstn n rows.
  Proof.
    destruct (topn_plain_all n rows topn_init) as (s'&E&M); [cbn; lia|]. cbn in M. rewrite Nat.sub_0_r in M.
    split.
    - intros (s&v&E2&->&->). congruence.
    - intros ->. exists s', (heap s'). auto.
  Qed.
End TopN.

(* the stable sort is a sort, and stable *)
Section Stable.
  Context {A : Type}.
  Variable cmp : A -> A -> Z.
  Variable P : A -> Prop.
  Hypothesis O : orders P cmp.

  Lemma insert_in_order x l : P x -> Forall P l -> in_order cmp l -> in_order cmp (insert cmp x l).
  Proof.
    intros Px F S1. induction l as [|y l IH]; cbn [insert]; [repeat constructor|].
    inversion S1 as [|? ? S1' F1]; subst. inversion F as [|? ? Py F']; subst.
    destruct (Z.leb_spec (cmp x y) 0) as [L|L].
    - constructor; [exact S1|]. constructor; [exact L|]. rewrite Forall_forall in *. intros z Hz. apply (letrans cmp P O x y z); auto.
    - constructor; [apply IH; assumption|]. rewrite Forall_forall in *. intros z Hz.
      apply (Permutation_in _ (Permutation_sym (insert_perm cmp x l))) in Hz. destruct Hz as [<-|Hz]; [|apply F1; exact Hz].
      pose proof (anti cmp P O y x Py Px). lia.
  Qed.
  Lemma stable_in_order l : Forall P l -> in_order cmp (stable_sort cmp l).
  Proof.
    induction 1 as [|x l Px F IH]; cbn [stable_sort]; [constructor|]. apply insert_in_order; auto.
    eapply Forall_perm; [apply stable_perm|exact F].
  Qed.
  Lemma insert_level a x l : P a -> P x -> Forall P l -> 
    filter (fun y => cmp a y =? 0) (insert cmp x l) = filter (fun y => cmp a y =? 0) (x :: l).
  Proof.
    intros Pa Px F. induction F as [|y l Py F IH]; cbn [insert]; [reflexivity|].
    destruct (Z.leb_spec (cmp x y) 0) as [L|L]; [reflexivity|]. cbn [filter] in *. rewrite IH.
    destruct (Z.eqb_spec (cmp a x) 0) as [E1|E1]; [|reflexivity].
    destruct (Z.eqb_spec (cmp a y) 0) as [E2|E2]; [|reflexivity].
    exfalso. assert (cmp x y <= 0); [|lia]. apply (letrans cmp P O x a y); auto; [|lia].
    pose proof (level cmp P O a x Pa Px E1). lia.
  Qed.
  Lemma stable_level a l : P a -> Forall P l ->
    filter (fun y => cmp a y =? 0) (stable_sort cmp l) = filter (fun y => cmp a y =? 0) l.
  Proof.
    intros Pa F. induction F as [|x l Px F IH]; cbn [stable_sort]; [reflexivity|].
    rewrite insert_level; auto; [cbn [filter]; rewrite IH; reflexivity|].
    eapply Forall_perm; [apply stable_perm|exact F].
  Qed.
End Stable.
