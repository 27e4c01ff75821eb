(* Heaps in vectors: shiftdown, shiftup and make_heap keep the heap order and the
   elements. *)
From Coq Require Import ZArith List Bool Permutation Lia PeanoNat.
From Verif Require Import Sort.Model.
Import ListNotations.
Local Open Scope nat_scope.

Section Heap.
  Context {A : Type}.
  Variable before : A -> A -> bool.
  Variable P : A -> Prop.
  (* [le x y]: y does not belong above x *)
  Definition le x y := before y x = false.
  Hypothesis asym : forall x y, P x -> P y -> before x y = true -> le x y.
  Hypothesis trans : forall x y z, P x -> P y -> P z -> le x y -> le y z -> le x z.

  Lemma refl x : P x -> le x x.
  Proof. intros Px. unfold le. destruct (before x x) eqn:E; [|reflexivity]. pose proof (asym x x Px Px E) as X. unfold le in X. congruence. Qed.

  Definition parent (j : nat) := (j - 1) / 2.

  Lemma upd_length i x (l : list A) : length (upd i x l) = length l.
  Proof.
    unfold upd. rewrite app_length, firstn_length. pose proof (skipn_length i l).
    destruct (skipn i l) eqn:E; cbn [length] in *; lia.
  Qed.
  Lemma nth_upd i x (l : list A) j : i < length l ->
    nth_error (upd i x l) j = if j =? i then Some x else nth_error l j.
  Proof.
    revert l j. induction i as [|i IH]; intros [|a l] j H; cbn [length] in H; try lia.
    - destruct j; reflexivity.
    - unfold upd in *. cbn [firstn skipn app]. destruct j; [reflexivity|]. cbn [nth_error]. rewrite IH by lia. reflexivity.
  Qed.

  Definition flip (i j k : nat) : nat := if k =? i then j else if k =? j then i else k.

  Lemma swap_length i j (l : list A) : length (swap i j l) = length l.
  Proof. unfold swap. destruct (nth_error l i), (nth_error l j); rewrite ?upd_length; reflexivity. Qed.
  Lemma nth_swap i j (l : list A) k : i < length l -> j < length l ->
    nth_error (swap i j l) k = nth_error l (flip i j k).
  Proof.
    intros Hi Hj. unfold swap.
    destruct (nth_error l i) eqn:Ei; [|apply nth_error_None in Ei; lia].
    destruct (nth_error l j) eqn:Ej; [|apply nth_error_None in Ej; lia].
    rewrite !nth_upd by (rewrite ?upd_length; lia). unfold flip.
    destruct (Nat.eqb_spec k i); [congruence|]. destruct (Nat.eqb_spec k j); congruence.
  Qed.
  Lemma swap_perm i j (l : list A) : i < length l -> j < length l -> Permutation l (swap i j l).
  Proof.
    intros Hi Hj. apply Permutation_nth_error. split; [symmetry; apply swap_length|].
    exists (flip i j). split.
    - intros x y. unfold flip.
      destruct (Nat.eqb_spec x i), (Nat.eqb_spec y i), (Nat.eqb_spec x j), (Nat.eqb_spec y j); subst; congruence.
    - intros n. apply nth_swap; assumption.
  Qed.

  (* elements at two positions are in order *)
  Definition ord (l : list A) (i j : nat) : Prop := before_at before l j i = false.

  Lemma ord_at l i j x y : nth_error l i = Some x -> nth_error l j = Some y -> ord l i j <-> le x y.
  Proof. intros Hi Hj. unfold ord, before_at. rewrite Hi, Hj. reflexivity. Qed.
  Lemma ord_out l i j : length l <= j -> ord l i j.
  Proof. intros H. unfold ord, before_at. apply nth_error_None in H. rewrite H. reflexivity. Qed.
  Lemma ord_out1 l i j : length l <= i -> ord l i j.
  Proof. intros H. unfold ord, before_at. apply nth_error_None in H. rewrite H. destruct (nth_error l j); reflexivity. Qed.
  Lemma ord_swap l i j a b : i < length l -> j < length l -> ord (swap i j l) a b <-> ord l (flip i j a) (flip i j b).
  Proof. intros Hi Hj. unfold ord, before_at. rewrite !nth_swap by assumption. reflexivity. Qed.

  Lemma at_P l i : Forall P l -> i < length l -> exists x, nth_error l i = Some x /\ P x.
  Proof.
    intros F H. destruct (nth_error l i) eqn:E; [|apply nth_error_None in E; lia].
    exists a. split; [reflexivity|]. rewrite Forall_forall in F. apply F. eapply nth_error_In; eauto.
  Qed.

  Lemma ord_trans l i j k : Forall P l -> j < length l -> ord l i j -> ord l j k -> ord l i k.
  Proof.
    intros F Hj H1 H2.
    destruct (Nat.lt_ge_cases i (length l)) as [Hi|Hi]; [|apply ord_out1; exact Hi].
    destruct (Nat.lt_ge_cases k (length l)) as [Hk|Hk]; [|apply ord_out; exact Hk].
    destruct (at_P l i F Hi) as (x&Ex&Px). destruct (at_P l j F Hj) as (y&Ey&Py). destruct (at_P l k F Hk) as (z&Ez&Pz).
    rewrite (ord_at _ _ _ _ _ Ex Ey) in H1. rewrite (ord_at _ _ _ _ _ Ey Ez) in H2. rewrite (ord_at _ _ _ _ _ Ex Ez).
    eapply trans with (y := y); eauto.
  Qed.
  Lemma before_ord l i j : Forall P l -> before_at before l i j = true -> ord l i j.
  Proof.
    intros F B. unfold ord. unfold before_at in *. destruct (nth_error l i) eqn:Ei; [|discriminate].
    destruct (nth_error l j) eqn:Ej; [|discriminate]. rewrite Forall_forall in F.
    apply asym; [apply F; eapply nth_error_In; eauto|apply F; eapply nth_error_In; eauto|exact B].
  Qed.
  Lemma before_lt l i j : before_at before l i j = true -> i < length l /\ j < length l.
  Proof.
    unfold before_at. intros H. split; apply nth_error_Some; intros E; rewrite E in H; [discriminate|].
    destruct (nth_error l i); discriminate.
  Qed.
  Lemma ord_refl l i : Forall P l -> ord l i i.
  Proof.
    intros F. destruct (Nat.lt_ge_cases i (length l)) as [Hi|Hi]; [|apply ord_out1; exact Hi].
    destruct (at_P l i F Hi) as (x&Ex&Px). rewrite (ord_at _ _ _ _ _ Ex Ex). apply refl. exact Px.
  Qed.

  Lemma parent_child i j : 0 < j -> parent j = i <-> j = i * 2 + 1 \/ j = S (i * 2 + 1).
  Proof.
    intros H. unfold parent. pose proof (Nat.div_mod (j - 1) 2 ltac:(lia)). pose proof (Nat.mod_upper_bound (j - 1) 2 ltac:(lia)). lia.
  Qed.
  Lemma parent_lt j : 0 < j -> parent j < j.
  Proof. intros H. unfold parent. pose proof (Nat.div_mod (j - 1) 2 ltac:(lia)). lia. Qed.

  (* the heap order for all nodes whose parent is k or later *)
  Definition heap_from (k : nat) (l : list A) : Prop :=
    forall j, 0 < j -> k <= parent j -> ord l (parent j) j.

  (* ... except between node i and its children *)
  Definition but (k i : nat) (l : list A) : Prop :=
    (forall j, 0 < j -> k <= parent j -> parent j <> i -> ord l (parent j) j) /\
    (forall c, 0 < c -> parent c = i -> 0 < i -> k <= parent i -> ord l (parent i) c).

  Lemma Forall_perm (l l' : list A) : Permutation l l' -> Forall P l -> Forall P l'.
  Proof. intros H F. rewrite Forall_forall in *. intros x Hx. apply F. eapply Permutation_in; [symmetry; exact H|exact Hx]. Qed.

  Lemma shiftdown_ok fuel : forall k i l, Forall P l -> length l - i <= fuel -> k <= i -> but k i l ->
    heap_from k (shiftdown before fuel i l) /\ Permutation l (shiftdown before fuel i l).
  Proof.
    induction fuel as [|f IH]; intros k i l F Hf Hk [H1 H2].
    { cbn [shiftdown]. split; [|reflexivity]. intros j Hj Hp.
      destruct (Nat.eq_dec (parent j) i) as [E|E]; [|apply H1; assumption].
      apply ord_out1. lia. }
    cbn [shiftdown]. destruct (Nat.leb_spec (length l) (i * 2 + 1)) as [L|L].
    { split; [|reflexivity]. intros j Hj Hp. destruct (Nat.eq_dec (parent j) i) as [E|E]; [|apply H1; assumption].
      apply parent_child in E; [|exact Hj]. apply ord_out. lia. }
    set (lf := i * 2 + 1) in *. set (rt := S lf) in *.
    set (m1 := if before_at before l lf i then lf else i).
    set (m2 := if before_at before l rt m1 then rt else m1).
    (* m2 is the least of the three *)
    assert (B1 : ord l m1 i /\ ord l m1 lf /\ (m1 = i \/ m1 = lf)).
    { unfold m1. destruct (before_at before l lf i) eqn:E.
      - repeat split; auto; [apply before_ord; assumption|apply ord_refl; assumption].
      - repeat split; auto. apply ord_refl; assumption. }
    assert (M1 : m1 < length l) by (destruct B1 as (_&_&[-> | ->]); lia).
    assert (B2 : ord l m2 i /\ ord l m2 lf /\ ord l m2 rt /\ m2 < length l /\ (m2 = i \/ m2 = lf \/ m2 = rt)).
    { unfold m2. destruct (before_at before l rt m1) eqn:E.
      - pose proof (before_lt _ _ _ E) as [Lr _]. pose proof (before_ord _ _ _ F E) as O.
        destruct B1 as (b1&b2&_).
        split; [apply (ord_trans l rt m1 i F M1 O b1)|]. split; [apply (ord_trans l rt m1 lf F M1 O b2)|].
        split; [apply ord_refl; assumption|]. split; [exact Lr|tauto].
      - destruct B1 as (b1&b2&b3). repeat split; auto. tauto. }
    destruct B2 as (O1&O2&O3&M2&M3).
    destruct (Nat.eqb_spec m2 i) as [E|E].
    { split; [|reflexivity]. rewrite E in *. intros j Hj Hp.
      destruct (Nat.eq_dec (parent j) i) as [Ej|Ej]; [|apply H1; assumption].
      rewrite Ej. apply parent_child in Ej; [|exact Hj]. fold lf in Ej. fold rt in Ej. destruct Ej; subst j; assumption. }
    assert (Hm : m2 = lf \/ m2 = rt) by tauto. clear M3.
    assert (Pm : parent m2 = i) by (apply parent_child; unfold rt in *; [lia|exact Hm]).
    assert (Il : i < length l) by lia.
    assert (Pl : 0 < m2) by (unfold rt in *; lia).
    pose proof (swap_perm m2 i l M2 Il) as SP.
    destruct (IH k m2 (swap m2 i l)) as [G1 G2].
    - eapply Forall_perm; eauto.
    - rewrite swap_length. unfold rt in *. lia.
    - unfold rt in *. lia.
    - split.
      + intros j Hj Hp Hn. rewrite ord_swap by assumption.
        destruct (Nat.eq_dec (parent j) i) as [Ej|Ej].
        * rewrite Ej. unfold flip at 1. destruct (Nat.eqb_spec i m2); [congruence|]. rewrite Nat.eqb_refl.
          apply parent_child in Ej; [|exact Hj]. fold lf in Ej. fold rt in Ej.
          unfold flip. destruct (Nat.eqb_spec j m2); [exact O1|].
          destruct (Nat.eqb_spec j i) as [X|X]; [subst j; exact (ord_trans _ _ _ _ F M2 (ord_refl _ _ F) (ord_refl _ _ F))|].
          destruct Ej; subst j; assumption.
        * assert (flip m2 i (parent j) = parent j) as ->.
          { unfold flip. destruct (Nat.eqb_spec (parent j) m2); [congruence|]. destruct (Nat.eqb_spec (parent j) i); congruence. }
          unfold flip. destruct (Nat.eqb_spec j m2); [congruence|].
          destruct (Nat.eqb_spec j i) as [X|X].
          -- subst j. apply H2; assumption.
          -- apply H1; assumption.
      + intros c Hc Hpc _ Hk'. rewrite Pm. rewrite ord_swap by assumption.
        unfold flip at 1. destruct (Nat.eqb_spec i m2); [congruence|]. rewrite Nat.eqb_refl.
        pose proof (parent_lt c Hc). unfold flip. destruct (Nat.eqb_spec c m2); [lia|].
        destruct (Nat.eqb_spec c i); [subst c; unfold rt in *; lia|].
        rewrite <- Hpc. apply H1; [assumption|lia|lia].
    - split; [exact G1|]. etransitivity; eauto.
  Qed.

  Definition is_heap (l : list A) : Prop := heap_from 0 l.

  Lemma heap_root l j : Forall P l -> is_heap l -> ord l 0 j.
  Proof.
    intros F Hh. induction j as [j IH] using lt_wf_ind.
    destruct (Nat.eq_dec j 0) as [->|Hj]; [apply ord_refl; exact F|].
    destruct (Nat.lt_ge_cases j (length l)) as [L|L]; [|apply ord_out; exact L].
    pose proof (parent_lt j ltac:(lia)).
    apply (ord_trans l 0 (parent j) j F); [lia|apply IH; lia|apply Hh; lia].
  Qed.

  (* root replaced *)
  Lemma shiftdown_root l : Forall P l -> (forall j, 0 < j -> parent j <> 0 -> ord l (parent j) j) ->
    is_heap (shiftdown before (length l) 0 l) /\ Permutation l (shiftdown before (length l) 0 l).
  Proof.
    intros F H. apply shiftdown_ok; auto; try lia. split; [intros; apply H; assumption|lia].
  Qed.

  Lemma ord_tail x y l j : 0 < parent j -> 0 < j -> ord (x :: l) (parent j) j <-> ord (y :: l) (parent j) j.
  Proof.
    intros Hp Hj. unfold ord, before_at. destruct (parent j); [lia|]. destruct j; [lia|]. reflexivity.
  Qed.

  Lemma replace_root x y l : Forall P (y :: l) -> is_heap (x :: l) ->
    is_heap (shiftdown before (S (length l)) 0 (y :: l)) /\ Permutation (y :: l) (shiftdown before (S (length l)) 0 (y :: l)).
  Proof.
    intros F H. apply (shiftdown_root (y :: l) F). intros j Hj Hp.
    apply (ord_tail x y); [lia|exact Hj|]. apply H; lia.
  Qed.

  (* dropping the last element *)
  Lemma heap_firstn k l n : heap_from k l -> heap_from k (firstn n l).
  Proof.
    intros H j Hj Hp. specialize (H j Hj Hp). unfold ord, before_at in *.
    pose proof (parent_lt j Hj).
    destruct (Nat.lt_ge_cases j n) as [L|L].
    - rewrite <- (firstn_skipn n l) in H.
      destruct (Nat.lt_ge_cases j (length (firstn n l))) as [L'|L'].
      + rewrite !nth_error_app1 in H by lia. exact H.
      + rewrite (proj2 (nth_error_None (firstn n l) j) L'). reflexivity.
    - assert (length (firstn n l) <= j) as L' by (rewrite firstn_length; lia).
      rewrite (proj2 (nth_error_None (firstn n l) j) L'). reflexivity.
  Qed.

  (* one element appended *)
  Definition up_ok (i : nat) (l : list A) : Prop :=
    (forall j, 0 < j -> j <> i -> ord l (parent j) j) /\
    (forall c, 0 < c -> parent c = i -> 0 < i -> ord l (parent i) c).

  Lemma shiftup_ok fuel : forall i l, Forall P l -> i < length l -> i < fuel -> up_ok i l ->
    is_heap (shiftup before fuel i l) /\ Permutation l (shiftup before fuel i l).
  Proof.
    induction fuel as [|f IH]; intros i l F Hl Hf [H1 H2]; [lia|].
    cbn [shiftup]. destruct i as [|i'].
    { split; [|reflexivity]. intros j Hj _. apply H1; lia. }
    change ((S i' - 1) / 2) with (parent (S i')). set (i := S i') in *.
    assert (Hi : 0 < i) by lia. pose proof (parent_lt i Hi) as Hp.
    destruct (before_at before l i (parent i)) eqn:B.
    - pose proof (swap_perm i (parent i) l Hl ltac:(lia)) as SP.
      pose proof (before_ord _ _ _ F B) as O.
      destruct (IH (parent i) (swap i (parent i) l)) as [G1 G2].
      + eapply Forall_perm; eauto.
      + rewrite swap_length. lia.
      + lia.
      + split.
        * intros j Hj Hn. rewrite ord_swap by lia.
          destruct (Nat.eq_dec j i) as [->|Ej].
          { unfold flip. rewrite Nat.eqb_refl. destruct (Nat.eqb_spec (parent i) i); [lia|]. rewrite Nat.eqb_refl. exact O. }
          assert (flip i (parent i) j = j) as ->.
          { unfold flip. destruct (Nat.eqb_spec j i); [congruence|]. destruct (Nat.eqb_spec j (parent i)); congruence. }
          destruct (Nat.eq_dec (parent j) i) as [Ep|Ep].
          { rewrite Ep. unfold flip. rewrite Nat.eqb_refl. apply H2; assumption. }
          destruct (Nat.eq_dec (parent j) (parent i)) as [Eq|Eq].
          { rewrite Eq. unfold flip. destruct (Nat.eqb_spec (parent i) i); [lia|]. rewrite Nat.eqb_refl.
            apply (ord_trans l i (parent i) j F); [lia|exact O|]. rewrite <- Eq. apply H1; assumption. }
          assert (flip i (parent i) (parent j) = parent j) as ->.
          { unfold flip. destruct (Nat.eqb_spec (parent j) i); [congruence|]. destruct (Nat.eqb_spec (parent j) (parent i)); congruence. }
          apply H1; assumption.
        * intros c Hc Hpc Hpi. rewrite ord_swap by lia.
          pose proof (parent_lt (parent i) Hpi).
          assert (flip i (parent i) (parent (parent i)) = parent (parent i)) as ->.
          { unfold flip. destruct (Nat.eqb_spec (parent (parent i)) i); [lia|]. destruct (Nat.eqb_spec (parent (parent i)) (parent i)); lia. }
          assert (GP : ord l (parent (parent i)) (parent i)) by (apply H1; lia).
          unfold flip. destruct (Nat.eqb_spec c i); [exact GP|].
          destruct (Nat.eqb_spec c (parent i)) as [X|X]; [pose proof (parent_lt c Hc); lia|].
          apply (ord_trans l _ (parent i) _ F); [lia|exact GP|]. rewrite <- Hpc. apply H1; assumption.
      + split; [exact G1|]. etransitivity; eauto.
    - split; [|reflexivity]. intros j Hj _. destruct (Nat.eq_dec j i) as [->|Ej]; [exact B|apply H1; assumption].
  Qed.

  Lemma push l x : Forall P (l ++ [x]) -> is_heap l ->
    is_heap (shiftup before (S (length l)) (length l) (l ++ [x])) /\
    Permutation (l ++ [x]) (shiftup before (S (length l)) (length l) (l ++ [x])).
  Proof.
    intros F H. apply shiftup_ok; [exact F|rewrite app_length; cbn; lia|lia|]. split.
    - intros j Hj Hn. destruct (Nat.lt_ge_cases j (length l)) as [L|L].
      + specialize (H j Hj ltac:(lia)). unfold ord, before_at in *. pose proof (parent_lt j Hj).
        rewrite !nth_error_app1 by lia. exact H.
      + apply ord_out. rewrite app_length. cbn. lia.
    - intros c Hc Hpc Hl. apply ord_out. rewrite app_length. cbn. pose proof (parent_lt c Hc). lia.
  Qed.

  (* building a heap bottom-up *)
  Lemma make_heap_ok_from k : forall l, Forall P l -> heap_from k l ->
    is_heap (make_heap_from before k l) /\ Permutation l (make_heap_from before k l).
  Proof.
    induction k as [|k IH]; intros l F H; [split; [exact H|reflexivity]|].
    cbn [make_heap_from].
    destruct (shiftdown_ok (length l) k k l F ltac:(lia) (le_n k)) as [G1 G2].
    { split; [intros j Hj Hp Hn; apply H; [exact Hj|lia]|].
      intros c Hc _ Hk Hp. pose proof (parent_lt k Hk). lia. }
    destruct (IH (shiftdown before (length l) k l)) as [G3 G4].
    - eapply Forall_perm; eauto.
    - exact G1.
    - split; [exact G3|]. etransitivity; eauto.
  Qed.

  Lemma make_heap_ok l : Forall P l -> is_heap (make_heap before l) /\ Permutation l (make_heap before l).
  Proof.
    intros F. apply make_heap_ok_from; [exact F|]. intros j Hj Hp. apply ord_out.
    unfold parent in Hp. pose proof (Nat.div_mod (length l) 2 ltac:(lia)).
    pose proof (Nat.mod_upper_bound (length l) 2 ltac:(lia)).
    pose proof (Nat.div_mod (j - 1) 2 ltac:(lia)). lia.
  Qed.
End Heap.
