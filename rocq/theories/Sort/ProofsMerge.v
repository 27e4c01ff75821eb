(* The merge heap returns every row once, in order; LIMIT returns the requested page. *)
From Coq Require Import ZArith List Bool Permutation Sorted Lia.
From Verif Require Import Sort.Model Sort.Spec Sort.ProofsHeap Sort.ProofsTopN.
Import ListNotations.
Local Open Scope Z_scope.

Lemma filter_length_le {B} (f : B -> bool) l : (length (filter f l) <= length l)%nat.
Proof. induction l as [|x l IH]; cbn [filter length]; [lia|]. destruct (f x); cbn [length]; lia. Qed.

Section Merge.
  Context {A : Type}.
  Variable cmp : A -> A -> Z.
  Variable P : A -> Prop.
  Hypothesis Ord : orders P cmp.

  Definition rows_of (h : list (batch (A := A))) : list A := concat (map batch_rows h).

  (* a batch of ordered rows *)
  Definition PB (b : batch (A := A)) : Prop := Forall P (batch_rows b) /\ in_order cmp (batch_rows b).

  Notation bef := (batch_before cmp).

  Lemma le_b x y : ProofsHeap.le bef x y <-> 0 <= cmp (fst y) (fst x).
  Proof. unfold ProofsHeap.le, batch_before, less. destruct (Z.ltb_spec (cmp (fst y) (fst x)) 0); split; intros; (lia || congruence). Qed.
  Lemma PB_P b : PB b -> P (fst b).
  Proof. intros [F _]. inversion F; assumption. Qed.
  Lemma b_asym x y : PB x -> PB y -> bef x y = true -> ProofsHeap.le bef x y.
  Proof.
    intros Hx Hy B. apply le_b. unfold batch_before, less in B. apply Z.ltb_lt in B.
    pose proof (anti cmp P Ord _ _ (PB_P _ Hx) (PB_P _ Hy)). lia.
  Qed.
  Lemma ge_le a b : P a -> P b -> 0 <= cmp a b <-> cmp b a <= 0.
  Proof. intros Pa Pb. pose proof (anti cmp P Ord a b Pa Pb). pose proof (anti cmp P Ord b a Pb Pa). lia. Qed.
  Lemma b_trans x y z : PB x -> PB y -> PB z -> ProofsHeap.le bef x y -> ProofsHeap.le bef y z -> ProofsHeap.le bef x z.
  Proof.
    intros Hx Hy Hz. rewrite !le_b. pose proof (PB_P _ Hx). pose proof (PB_P _ Hy). pose proof (PB_P _ Hz).
    rewrite !ge_le by assumption. apply (letrans cmp P Ord); assumption.
  Qed.

  Definition good (h : list (batch (A := A))) : Prop := Forall PB h /\ is_heap bef h.

  Lemma heap_small (h : list (batch (A := A))) : (length h <= 1)%nat -> is_heap bef h.
  Proof. intros L j Hj _. apply ord_out. lia. Qed.

  Lemma rows_perm (h h' : list batch) : Permutation h h' -> Permutation (rows_of h) (rows_of h').
  Proof. intros H. unfold rows_of. rewrite <- !flat_map_concat_map. apply Permutation_flat_map. exact H. Qed.

  Lemma merge_good h : Forall PB h -> good (merge_sort cmp false h) /\ Permutation (rows_of h) (rows_of (merge_sort cmp false h)).
  Proof.
    intros F. unfold merge_sort. destruct (Nat.ltb_spec 1 (length h)) as [L|L].
    - destruct (make_heap_ok bef PB b_asym b_trans h F) as [G1 G2]. split; [split; [eapply Forall_perm; eauto|exact G1]|].
      apply rows_perm. exact G2.
    - split; [|reflexivity]. split; [exact F|apply heap_small; exact L].
  Qed.

  Lemma root_least h b t : good h -> h = b :: t -> forall y, In y (rows_of h) -> cmp (fst b) y <= 0.
  Proof.
    intros [F Hh] -> y Hy. unfold rows_of in Hy. apply in_concat in Hy as (l&Hl&Hy). apply in_map_iff in Hl as (c&<-&Hc).
    rewrite Forall_forall in F. pose proof (F b (or_introl eq_refl)) as Pb. pose proof (F c Hc) as Pc.
    assert (B : cmp (fst b) (fst c) <= 0).
    { apply In_nth_error in Hc as (j&Hj).
      pose proof (heap_root bef PB b_asym b_trans (b :: t) j ltac:(rewrite Forall_forall; exact F) Hh) as R.
      rewrite (ord_at _ _ _ _ b c) in R by auto. apply le_b in R. apply ge_le in R; auto using PB_P. }
    destruct Pc as [FP Sc]. unfold batch_rows in *. destruct Hy as [<-|Hy]; [exact B|].
    inversion Sc as [|? ? _ Fc]; subst. inversion FP as [|? ? Pfc FP']; subst. rewrite Forall_forall in Fc, FP'.
    apply (letrans cmp P Ord (fst b) (fst c) y); auto using PB_P.
  Qed.

  Lemma pop_ok h : good h ->
    match pop cmp h with
    | None => h = []
    | Some (r, h') => Permutation (rows_of h) (r :: rows_of h') /\ good h' /\ P r /\ forall y, In y (rows_of h') -> cmp r y <= 0
    end.
  Proof.
    intros G. pose proof G as [F Hh]. destruct h as [|[r b] t]; [reflexivity|].
    pose proof (root_least _ _ _ G eq_refl) as R. cbn [fst] in R.
    inversion F as [|? ? PBr Ft]; subst. destruct b as [|r2 b].
    - cbn [pop].
      set (h' := match rev t with [] => [] | lastb :: _ => lastb :: removelast t end).
      assert (Hp : Permutation t h').
      { unfold h'. destruct (rev t) as [|lastb rt] eqn:E.
        - apply (f_equal (@rev _)) in E. rewrite rev_involutive in E. cbn in E. subst t. constructor.
        - assert (t = rev rt ++ [lastb]) as -> by (rewrite <- (rev_involutive t), E; reflexivity).
          rewrite removelast_last. symmetry. apply Permutation_cons_append. }
      assert (Fh' : Forall PB h') by (eapply Forall_perm; eauto).
      assert (Hs : match h' with [] => [] | _ => shiftdown bef (length h') 0 h' end = shiftdown bef (length h') 0 h') by (destruct h'; reflexivity).
      rewrite Hs.
      assert (But : is_heap bef (shiftdown bef (length h') 0 h') /\ Permutation h' (shiftdown bef (length h') 0 h')).
      { unfold h' in *. destruct (rev t) as [|lastb rt] eqn:E; [split; [apply heap_small; cbn; lia|constructor]|].
        assert (t = rev rt ++ [lastb]) as Et by (rewrite <- (rev_involutive t), E; reflexivity).
        cbn [length].
        apply (replace_root bef PB b_asym b_trans (r, []) lastb (removelast t)); [exact Fh'|].
        assert (Y : firstn (length t) (((r, []) : batch) :: t) = (r, []) :: removelast t).
        { subst t. rewrite removelast_last, app_length. cbn [length]. rewrite Nat.add_1_r. cbn [firstn]. f_equal.
          rewrite firstn_app, firstn_all, Nat.sub_diag, firstn_O, app_nil_r. reflexivity. }
        pose proof (heap_firstn bef 0 _ (length t) Hh) as X. unfold is_heap. apply (eq_rect _ (heap_from bef 0) X _ Y). }
      destruct But as [G1 G2].
      assert (PT : Permutation t (shiftdown bef (length h') 0 h')) by (rewrite Hp at 1; exact G2).
      assert (PR : Permutation (rows_of ((r, []) :: t)) (r :: rows_of (shiftdown bef (length h') 0 h'))).
      { unfold rows_of at 1. cbn [map concat batch_rows fst snd app]. constructor. apply (rows_perm _ _ PT). }
      split; [exact PR|]. split; [split; [eapply Forall_perm; [exact PT|exact Ft]|exact G1]|].
      split; [exact (PB_P _ PBr)|]. intros y Hy. apply R. apply (Permutation_in _ (Permutation_sym PR)). right. exact Hy.
    - cbn [pop].
      assert (Fh' : Forall PB ((r2, b) :: t)).
      { constructor; [|exact Ft]. destruct PBr as [FP Sc]. unfold PB, batch_rows in *. cbn [fst snd] in *.
        inversion FP; subst. inversion Sc; subst. split; assumption. }
      destruct (replace_root bef PB b_asym b_trans (r, r2 :: b) (r2, b) t Fh' Hh) as [G1 G2].
      change (length ((r2, b) :: t)) with (S (length t)).
      assert (PR : Permutation (rows_of ((r, r2 :: b) :: t)) (r :: rows_of (shiftdown bef (S (length t)) 0 ((r2, b) :: t)))).
      { rewrite <- (rows_perm _ _ G2). unfold rows_of. cbn [map concat batch_rows fst snd app]. reflexivity. }
      split; [exact PR|]. split; [split; [eapply Forall_perm; [exact G2|exact Fh']|exact G1]|].
      split; [exact (PB_P _ PBr)|]. intros y Hy. apply R. apply (Permutation_in _ (Permutation_sym PR)). right. exact Hy.
  Qed.

  (* a prefix of the sorted rows, and what is left *)
  Definition cut (before out after : list A) : Prop :=
    Permutation before (out ++ after) /\ in_order cmp out /\ (forall x y, In x out -> In y after -> cmp x y <= 0).

  Lemma rows_nonempty h : rows_of h = [] <-> h = [].
  Proof. destruct h as [|[r b] t]; cbn; split; congruence. Qed.

  Lemma take_ok cap : forall h, good h ->
    let '(rows, eos, h') := take_rows cmp cap h in
    good h' /\ cut (rows_of h) rows (rows_of h') /\ Forall P rows /\
    length rows = Nat.min cap (length (rows_of h)) /\ (eos = true -> h' = []) /\ (eos = false -> length rows = cap).
  Proof.
    induction cap as [|c IH]; intros h G; cbn [take_rows].
    - split; [exact G|]. split; [split; [reflexivity|split; [constructor|intros ? ? []]]|]. split; [constructor|]. cbn. split; [reflexivity|]. split; [discriminate|reflexivity].
    - pose proof (pop_ok h G) as Hp. destruct (pop cmp h) as [[r h']|].
      + destruct Hp as (PR&G'&Pr&Rl). specialize (IH h' G'). destruct (take_rows cmp c h') as [[rows eos] h2].
        destruct IH as (G2&(C1&C2&C3)&FP&L&E1&E2).
        assert (Hrl : forall y, In y rows -> cmp r y <= 0).
        { intros y Hy. apply Rl. apply (Permutation_in _ (Permutation_sym C1)). apply in_or_app. auto. }
        split; [exact G2|]. split; [|split; [constructor; assumption|]].
        * split; [rewrite PR; cbn [app]; constructor; exact C1|]. split.
          -- constructor; [exact C2|]. rewrite Forall_forall. exact Hrl.
          -- intros x y [<-|Hx] Hy; [|apply C3; assumption]. apply Rl. apply (Permutation_in _ (Permutation_sym C1)). apply in_or_app. auto.
        * split; [cbn [length]; rewrite L; rewrite (Permutation_length PR); reflexivity|]. split; [exact E1|].
          intros E. cbn [length]. rewrite (E2 E). reflexivity.
      + subst h. split; [exact G|]. split; [split; [reflexivity|split; [constructor|intros ? ? []]]|]. split; [constructor|].
        cbn. split; [reflexivity|]. split; [reflexivity|discriminate].
  Qed.

  Lemma in_order_app l l' : in_order cmp l -> in_order cmp l' -> (forall x y, In x l -> In y l' -> cmp x y <= 0) -> in_order cmp (l ++ l').
  Proof.
    intros S1 S2 H. induction S1 as [|x l S1 IH F1]; cbn [app]; [exact S2|]. constructor.
    - apply IH. intros a b Ha Hb. apply H; [right; exact Ha|exact Hb].
    - apply Forall_app. split; [exact F1|]. rewrite Forall_forall. intros y Hy. apply H; [left; reflexivity|exact Hy].
  Qed.

  Lemma get_next_take cap h : get_next cmp false cap h = match h with [] => ([], true, []) | _ => take_rows cmp cap h end.
  Proof. destruct h; reflexivity. Qed.

  Lemma get_all_ok caps : forall h, good h ->
    let '(rows, eos, h') := get_all cmp false caps h in
    good h' /\ cut (rows_of h) rows (rows_of h') /\ Forall P rows /\ (eos = true -> h' = []) /\
    (eos = false -> length rows = list_sum caps).
  Proof.
    induction caps as [|c caps IH]; intros h G; cbn [get_all].
    - split; [exact G|]. split; [split; [reflexivity|split; [constructor|intros ? ? []]]|]. split; [constructor|]. split; [discriminate|reflexivity].
    - rewrite get_next_take. destruct h as [|b t].
      + split; [exact G|]. split; [split; [reflexivity|split; [constructor|intros ? ? []]]|]. split; [constructor|]. split; [reflexivity|discriminate].
      + pose proof (take_ok c (b :: t) G) as T. destruct (take_rows cmp c (b :: t)) as [[rows eos] h'].
        destruct T as (G'&(C1&C2&C3)&FP&L&E1&E2). destruct eos.
        * split; [exact G'|]. split; [split; [exact C1|split; assumption]|]. split; [exact FP|]. split; [exact E1|discriminate].
        * specialize (IH h' G'). destruct (get_all cmp false caps h') as [[rows' eos'] h2].
          destruct IH as (G2&(D1&D2&D3)&FP'&E3&E4). split; [exact G2|]. split; [split; [|split]|split; [|split]].
          -- rewrite C1, D1, app_assoc. reflexivity.
          -- apply in_order_app; auto. intros x y Hx Hy. apply C3; [exact Hx|]. apply (Permutation_in _ (Permutation_sym D1)). apply in_or_app. auto.
          -- intros x y Hx Hy. apply in_app_or in Hx. destruct Hx as [Hx|Hx]; [|apply D3; assumption].
             apply C3; [exact Hx|]. apply (Permutation_in _ (Permutation_sym D1)). apply in_or_app. auto.
          -- apply Forall_app. auto.
          -- exact E3.
          -- intros E. rewrite app_length. cbn [list_sum fold_right]. rewrite (E2 eq_refl), (E4 E). reflexivity.
  Qed.

  (* enough room: eos is reached *)
  Lemma get_all_ends caps : forall h, good h -> (length (rows_of h) < list_sum caps)%nat ->
    snd (fst (get_all cmp false caps h)) = true.
  Proof.
    intros h G L. pose proof (get_all_ok caps h G) as H. destruct (get_all cmp false caps h) as [[rows eos] h'].
    destruct H as (_&(C1&_)&_&_&E). cbn [fst snd]. destruct eos; [reflexivity|exfalso]. specialize (E eq_refl).
    apply Permutation_length in C1. rewrite app_length in C1. lia.
  Qed.

  (* sorting the batches first *)
  Lemma std_sort_order l l' : Forall P l -> std_sort (less cmp) l l' -> in_order cmp l' /\ Forall P l'.
  Proof.
    intros F [Pm Hs]. assert (F' : Forall P l') by (eapply Forall_perm; eauto). split; [|exact F'].
    clear F Pm. induction F' as [|x l' Px F' IH]; constructor.
    - apply IH. intros i j a b Hij Ha Hb. apply (Hs (S i) (S j) a b); [lia|exact Ha|exact Hb].
    - rewrite Forall_forall in *. intros y Hy. pose proof (F' y Hy) as Py. apply In_nth_error in Hy as (j&Hj).
      pose proof (Hs 0%nat (S j) x y ltac:(lia) eq_refl Hj) as E. unfold less in E. apply Z.ltb_ge in E.
      apply ge_le; assumption.
  Qed.

  Lemma sort_good h h2 : Forall (fun b => Forall P (batch_rows b)) h -> sorter_sort cmp false h h2 ->
    good h2 /\ Permutation (rows_of h) (rows_of h2).
  Proof.
    intros F (h'&SB&->).
    assert (FB : Forall PB h' /\ Permutation (rows_of h) (rows_of h') /\ length h = length h').
    { clear - F SB Ord. induction SB as [|b b' h h' Sb _ IH]; [repeat split; constructor|].
      inversion F as [|? ? Fb F']; subst. destruct (IH F') as (I1&I2&I3). destruct (std_sort_order _ _ Fb Sb) as [Q1 Q2].
      split; [constructor; [split; assumption|exact I1]|]. split; [|cbn; congruence].
      unfold rows_of in *. cbn [map concat]. destruct Sb as [Pb _]. apply Permutation_app; assumption. }
    destruct FB as (FB&PR&L). rewrite L. pose proof (merge_good h' FB) as [G1 G2]. unfold merge_sort in G1, G2.
    split; [exact G1|]. etransitivity; eauto.
  Qed.

  (* without ordering *)
  Lemma get_plain : forall caps h, (length h <= length caps)%nat -> h <> [] ->
    get_all cmp true caps h = (rows_of h, true, []).
  Proof.
    induction caps as [|c caps IH]; intros h L N; [destruct h; [congruence|cbn in L; lia]|].
    destruct h as [|b [|b2 t]]; [congruence| |].
    - cbn [get_all get_next]. unfold rows_of. cbn [map concat]. rewrite app_nil_r. reflexivity.
    - cbn [get_all get_next]. rewrite IH; [|cbn in *; lia|discriminate]. unfold rows_of. cbn [map concat]. reflexivity.
  Qed.

  (* first rows of region results cut to n rows each are first rows of everything *)
  Lemma first_of_firsts n (ls outs : list (list A)) out :
    Forall (Forall P) ls ->
    Forall2 (first_rows cmp n) ls outs -> first_rows cmp n (concat outs) out -> first_rows cmp n (concat ls) out.
  Proof.
    intros F FF (rest&Pm&So&Lt&Len).
    assert (G : exists extra, Permutation (concat ls) (concat outs ++ extra) /\
      (extra = [] \/ (n <= length (concat outs))%nat) /\
      (forall y, In y extra -> exists l, In l outs /\ length l = n /\ forall x, In x l -> cmp x y <= 0)).
    { clear - FF. induction FF as [|l o ls outs (r&Pr&_&Lr&Nr) _ (ex&PE&HE&HY)].
      - exists []. cbn. repeat split; auto. intros y [].
      - exists (ex ++ r). split; [|split].
        + cbn [concat]. rewrite Pr, PE. rewrite <- !app_assoc. apply Permutation_app_head.
          rewrite (Permutation_app_comm r), <- app_assoc. reflexivity.
        + destruct r as [|y r].
          * rewrite app_nil_r. destruct HE as [->|HE]; [auto|]. right. cbn [concat]. rewrite app_length. lia.
          * right. cbn [concat]. rewrite app_length. apply Permutation_length in Pr. rewrite app_length in Pr. cbn [length] in Pr. lia.
        + intros y Hy. apply in_app_or in Hy. destruct Hy as [Hy|Hy].
          * destruct (HY y Hy) as (l2&?&?&?). exists l2. split; [right; assumption|auto].
          * exists o. split; [left; reflexivity|]. split; [|intros x Hx; apply Lr; assumption].
            apply Permutation_length in Pr. rewrite app_length in Pr. destruct r; [destruct Hy|]. cbn [length] in Pr. lia. }
    destruct G as (extra&PE&HE&HY). exists (rest ++ extra). split; [|split; [exact So|split]].
    - rewrite PE, Pm, <- app_assoc. reflexivity.
    - intros x y Hx Hy. apply in_app_or in Hy. destruct Hy as [Hy|Hy]; [apply Lt; assumption|].
      (* y was cut off in its region: n rows before it there; either one is not in out, or out is those *)
      destruct (HY y Hy) as (l&Hl&Ll&Bl).
      assert (FA : Forall P (concat ls)) by (apply Forall_concat; exact F).
      assert (FO : Forall P (concat outs ++ extra)) by (eapply Forall_perm; eauto).
      apply Forall_app in FO as [FO FE]. pose proof (Forall_perm _ _ _ Pm FO) as FO2. apply Forall_app in FO2 as [Fout Frest].
      rewrite Forall_forall in *.
      assert (Py : P y) by (apply FE; exact Hy).
      assert (Px : P x) by (apply Fout; exact Hx).
      destruct (Z.le_gt_cases (cmp x y) 0) as [|Gt]; [assumption|exfalso].
      (* then y < x, all of l is < x, so all of l is in out, with x: more than n *)
      assert (Hyx : cmp y x < 0) by (pose proof (anti cmp P Ord y x Py Px); lia).
      assert (Inc : forall z, In z l -> cmp z x < 0).
      { intros z Hz. assert (P z) by (apply FO; apply in_concat; eauto). apply (le_lt_trans cmp P Ord z y x); auto. }
      assert (Cnt : (length (filter (fun z => (cmp z x <? 0)%Z) (concat outs)) <= length (filter (fun z => (cmp z x <? 0)%Z) out))%nat).
      { assert (E : filter (fun z => (cmp z x <? 0)%Z) rest = []).
        { assert (Q : forall z, In z rest -> (cmp z x <? 0) = false).
          { intros z Hz. apply Z.ltb_ge. pose proof (Lt x z Hx Hz). apply ge_le; auto. }
          clear - Q. induction rest as [|z rest IH]; [reflexivity|]. cbn [filter]. rewrite Q by (left; reflexivity). apply IH. intros w Hw. apply Q. right. exact Hw. }
        assert (PF : Permutation (filter (fun z => (cmp z x <? 0)%Z) (concat outs)) (filter (fun z => (cmp z x <? 0)%Z) (out ++ rest))).
        { clear - Pm. induction Pm; cbn [filter]; try (destruct (cmp x0 x <? 0)); try (destruct (cmp y x <? 0)); try reflexivity; try (constructor; assumption); try assumption; try apply perm_swap. etransitivity; eauto. }
        apply Permutation_length in PF. rewrite PF, filter_app, E, app_nil_r. lia. }
      assert (Low : (n <= length (filter (fun z => (cmp z x <? 0)%Z) (concat outs)))%nat).
      { rewrite <- Ll. clear - Hl Inc. induction outs as [|o outs IH]; [destruct Hl|]. cbn [concat]. rewrite filter_app, app_length.
        destruct Hl as [->|Hl].
        - assert (filter (fun z => (cmp z x <? 0)%Z) l = l) as ->; [|lia].
          clear - Inc. induction l as [|z l IH]; [reflexivity|]. cbn [filter]. rewrite (proj2 (Z.ltb_lt _ _)) by (apply Inc; left; reflexivity).
          f_equal. apply IH. intros w Hw. apply Inc. right. exact Hw.
        - pose proof (IH Hl). lia. }
      assert (Up : (length (filter (fun z => (cmp z x <? 0)%Z) out) < length out)%nat).
      { assert (Cxx : (cmp x x <? 0) = false) by (apply Z.ltb_ge; rewrite (cmp_refl cmp P Ord x Px); lia).
        clear - Hx Cxx. induction out as [|z out IH]; [destruct Hx|]. cbn [filter length]. destruct Hx as [->|Hx].
        - rewrite Cxx. pose proof (filter_length_le (fun z => cmp z x <? 0) out). lia.
        - specialize (IH Hx). destruct (cmp z x <? 0); cbn [length]; lia. }
      lia.
    - rewrite Len. apply Permutation_length in PE. rewrite app_length in PE. destruct HE as [->|HE]; cbn [length] in *; lia.
  Qed.
End Merge.

Section LimitProofs.
  Context {A : Type}.

  Lemma child_next_ok (c : list (list A)) b eos c' : child_next c = (b, eos, c') ->
    concat c = b ++ concat c' /\ (eos = true <-> c' = []) /\ ((length c' < length c)%nat \/ (c = [] /\ c' = [])).
  Proof.
    destruct c as [|b0 [|b1 t]]; cbn [child_next]; intros [= <- <- <-]; cbn [concat length]; rewrite ?app_nil_r;
      repeat split; auto; try discriminate; try (left; lia).
  Qed.

  Lemma skip_loop_ok offset fuel : forall skip (b : list A) eos c b' eos' ret skip' c', (length c < fuel)%nat ->
    (eos = true <-> c = []) -> 
    skip_loop fuel offset skip b eos c = (b', eos', ret, skip', c') ->
    skipn (Z.to_nat (offset - skip)) (b ++ concat c) = b' ++ concat c' /\
    (eos' = true <-> c' = []) /\ (length c' <= length c)%nat /\ skip <= skip' /\
    (ret = true -> b' = [] /\ eos' = true) /\ (ret = false -> offset <= skip').
  Proof.
    induction fuel as [|f IH]; intros skip b eos c b' eos' ret skip' c' L E H; [lia|]. cbn [skip_loop] in H.
    destruct (Z.ltb_spec skip offset) as [Ls|Ls]; cbn [negb] in H.
    - destruct (Z.leb_spec (skip + Z.of_nat (length b)) offset) as [Lb|Lb].
      + assert (Sk : forall r, skipn (Z.to_nat (offset - skip)) (b ++ r) = skipn (Z.to_nat (offset - (skip + Z.of_nat (length b)))) r).
        { intros r. rewrite skipn_app. rewrite skipn_all2 by lia. cbn [app]. f_equal. lia. }
        rewrite Sk. destruct eos.
        * injection H as <- <- <- <- <-. rewrite (proj1 E eq_refl). cbn [concat app]. rewrite skipn_nil. repeat split; auto; try discriminate; lia.
        * destruct (child_next c) as [[b2 eos2] c2] eqn:Ec. apply child_next_ok in Ec as (C1&C2&C3).
          destruct C3 as [C3|[C3 _]]; [|apply E in C3; discriminate].
          apply IH in H as (G1&G2&G3&G4&G5&G6); [|lia|exact C2]. rewrite C1, G1.
          split; [reflexivity|]. split; [exact G2|]. split; [lia|]. split; [lia|]. split; [exact G5|exact G6].
      + injection H as <- <- <- <- <-. split; [|repeat split; auto; try apply E; try discriminate; lia].
        unfold skip_rows. destruct (Z.leb_spec (offset - skip) 0); [lia|].
        destruct (Z.leb_spec (Z.of_nat (length b)) (offset - skip)); [lia|].
        rewrite skipn_app. replace (Z.to_nat (offset - skip) - length b)%nat with 0%nat by lia. reflexivity.
    - injection H as <- <- <- <- <-. replace (Z.to_nat (offset - skip)) with 0%nat by lia. cbn [skipn].
      repeat split; auto; try apply E; try discriminate; lia.
  Qed.

  (* rows still to be returned *)
  Definition due (limit offset : Z) (s : lstate (A := A)) : list A :=
    let l := skipn (Z.to_nat (offset - skipped s)) (concat (child s)) in
    if limit =? -1 then l else firstn (Z.to_nat (limit - returned s)) l.

  Lemma limit_ok limit offset : -1 <= limit -> forall fuel s, (length (child s) < fuel)%nat ->
    limit_all fuel limit offset s = (due limit offset s, true).
  Proof.
    intros HL. induction fuel as [|f IH]; intros s L; [lia|]. cbn [limit_all].
    unfold limit_next, due. destruct (reached_limit limit (returned s)) eqn:R.
    { unfold reached_limit in R. apply andb_prop in R as [R1 R2]. apply Z.leb_le in R2.
      destruct (limit =? -1); [discriminate|]. replace (Z.to_nat (limit - returned s)) with 0%nat by lia. reflexivity. }
    destruct (child_next (child s)) as [[b0 eos0] c0] eqn:Ec. apply child_next_ok in Ec as (C1&C2&C3).
    destruct (skip_loop (S (length (child s))) offset (skipped s) b0 eos0 c0) as [[[[b eos] ret] skip] c] eqn:Es.
    apply skip_loop_ok in Es as (G1&G2&G3&G4&G5&G6); [|destruct C3 as [C3|[_ ->]]; cbn [length]; lia|exact C2].
    rewrite C1, G1. destruct ret.
    - destruct (G5 eq_refl) as [-> ->]. rewrite (proj1 G2 eq_refl). cbn [concat app]. rewrite firstn_nil. destruct (limit =? -1); reflexivity.
    - specialize (G6 eq_refl). unfold reached_limit in *. destruct (Z.eqb_spec limit (-1)) as [EL|EL]; cbn [negb andb] in *.
      + destruct eos.
        * rewrite (proj1 G2 eq_refl). cbn [concat]. rewrite app_nil_r. reflexivity.
        * rewrite IH.
          -- unfold due. cbn [skipped returned child]. rewrite (proj2 (Z.eqb_eq _ _) EL). replace (Z.to_nat (offset - skip)) with 0%nat by lia. reflexivity.
          -- cbn [child]. destruct C3 as [C3|[_ C3]]; [lia|]. destruct c; [discriminate (proj2 G2 eq_refl)|]. subst c0. cbn [length] in *. lia.
      + apply Z.leb_gt in R. destruct (Z.leb_spec limit (returned s + Z.of_nat (length b))) as [Rl|Rl].
        * f_equal. unfold keep_first_rows. destruct (Z.leb_spec (Z.of_nat (length b)) (Z.of_nat (length b) - (returned s + Z.of_nat (length b) - limit))).
          -- rewrite firstn_app. replace (Z.to_nat (limit - returned s)) with (length b) by lia. rewrite Nat.sub_diag, firstn_all, firstn_O, app_nil_r. reflexivity.
          -- destruct (Z.leb_spec (Z.of_nat (length b) - (returned s + Z.of_nat (length b) - limit)) 0); [lia|].
             rewrite firstn_app. replace (Z.to_nat (limit - returned s) - length b)%nat with 0%nat by lia.
             rewrite firstn_O, app_nil_r. f_equal. lia.
        * destruct eos.
          -- rewrite (proj1 G2 eq_refl). cbn [concat]. rewrite app_nil_r, firstn_all2 by lia. reflexivity.
          -- rewrite IH.
             ++ unfold due. cbn [skipped returned child]. rewrite (proj2 (Z.eqb_neq _ _) EL). replace (Z.to_nat (offset - skip)) with 0%nat by lia. cbn [skipn].
                rewrite firstn_app, (firstn_all2 b) by lia. do 3 f_equal. lia.
             ++ cbn [child]. destruct C3 as [C3|[_ C3]]; [lia|]. destruct c; [discriminate (proj2 G2 eq_refl)|]. subst c0. cbn [length] in *. lia.
  Qed.
End LimitProofs.
