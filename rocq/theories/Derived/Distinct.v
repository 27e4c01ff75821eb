(* SELECT DISTINCT gives each row once; statements that are well formed are planned. *)
From Coq Require Import List ZArith Bool Arith Lia Permutation.
From Verif Require Import Derived.Spec Derived.Model Derived.Groups Derived.Push Derived.Plan.
Import ListNotations.

Lemma insert_perm {A} (le : A -> A -> bool) x l : Permutation (insert le x l) (x :: l).
Proof.
  induction l as [|y l IH]; cbn; auto. destruct (le x y); auto.
  rewrite IH. apply perm_swap.
Qed.
Lemma sort_perm {A} (le : A -> A -> bool) l : Permutation (sort le l) l.
Proof. induction l as [|x l IH]; cbn; auto. rewrite insert_perm. now constructor. Qed.

Lemma NoDup_firstn {A} n (l : list A) : NoDup l -> NoDup (firstn n l).
Proof.
  revert n. induction l as [|x l IH]; intros [|n] N; cbn; try constructor; inversion N; subst; auto.
  intros E. apply firstn_in in E. tauto.
Qed.
Lemma NoDup_skipn {A} n (l : list A) : NoDup l -> NoDup (skipn n l).
Proof. revert n. induction l as [|x l IH]; intros [|n] N; cbn; auto. inversion N; subst. auto. Qed.
Lemma NoDup_cut {A} lim (l : list A) : NoDup l -> NoDup (cut lim l).
Proof. destruct lim as [[o c]|]; cbn; auto. intros. now apply NoDup_firstn, NoDup_skipn. Qed.

Lemma heads_distinct (out : row -> list val) all :
  map out (map (hd null_row) (groups out all)) = distinct (map out all).
Proof.
  unfold groups. rewrite !map_map. rewrite <- (map_id (distinct (map out all))) at 2. apply map_ext_in.
  intros k Hk. apply (proj1 (distinct_in _ _)) in Hk. apply in_map_iff in Hk. destruct Hk as (r & Hr1 & Hr2).
  destruct (filter (fun r0 => key_eqb (out r0) k) all) as [|h l] eqn:EF.
  - assert (X : In r []) by (rewrite <- EF; apply filter_In; split; auto; now apply key_eqb_true). destruct X.
  - assert (X : In h (h :: l)) by (cbn; auto). rewrite <- EF in X. apply filter_In in X. destruct X as [_ X].
    now apply key_eqb_true in X.
Qed.

Lemma sel_distinct d rows : s_distinct d = true ->
  NoDup (sel_result d rows) /\
  (forall v, In v (sel_result d rows) -> In v (sel_result (bare_select d) rows)) /\
  (s_limit d = None -> forall v, In v (sel_result (bare_select d) rows) -> In v (sel_result d rows)).
Proof.
  intros ED. unfold sel_result. rewrite ED. cbn [s_distinct bare_select s_proj s_limit s_order cut].
  change (sel_rows (bare_select d) rows) with (sel_rows d rows).
  set (out := fun r => map (eval r) (s_proj d)). set (all := sel_rows d rows).
  set (S1 := sort_rows (s_order d) (map (hd null_row) (groups out all))).
  assert (PM : Permutation (map out S1) (distinct (map out all))).
  { unfold S1, sort_rows. rewrite <- heads_distinct. apply Permutation_map. apply sort_perm. }
  assert (NB : Permutation (map out (sort_rows [] all)) (map out all)).
  { apply Permutation_map. apply sort_perm. }
  assert (ND : NoDup (map out S1)) by (eapply Permutation_NoDup; [symmetry; exact PM|apply distinct_nodup]).
  rewrite <- cut_map. split; [now apply NoDup_cut|]. split.
  - intros v Hv. apply cut_in in Hv. eapply Permutation_in in Hv; [|exact PM].
    apply (proj1 (distinct_in _ _)) in Hv. eapply Permutation_in; [symmetry; exact NB|exact Hv].
  - intros -> v Hv. cbn. eapply Permutation_in; [symmetry; exact PM|]. apply (proj2 (distinct_in _ _)).
    eapply Permutation_in; [exact NB|exact Hv].
Qed.

Theorem distinct_answer src d a b :
  s_distinct d = true ->
  answer (Select src d) = Some a -> answer (Select src (bare_select d)) = Some b ->
  all_selects no_bare_condition (Select src d) -> source_selects no_constant_beside_total src ->
  source_selects full_group_by src -> all_selects plain_distinct (Select src d) -> source_unions plain_union src ->
  NoDup a /\ (forall v, In v a -> In v b) /\ (s_limit d = None -> forall v, In v b -> In v a).
Proof.
  intros ED A B NB NC FG PD PU.
  apply answer_ok in A; auto. apply answer_ok in B; auto.
  - subst. cbn [meaning]. now apply sel_distinct.
  - destruct PD as [_ PD]. split; auto. intros E. discriminate.
Qed.

Lemma position_some n names : In n names -> exists i, position n names = Some i.
Proof.
  intros E. destruct (position n names) eqn:P; eauto. apply position_none in P. tauto.
Qed.

Lemma name_slot_some n names : In n names -> exists i, name_slot names n = Some i.
Proof.
  intros E. unfold name_slot. rewrite name_slot_gen. cbn [snd].
  destruct (position n (rev names)) eqn:P; eauto. apply position_none in P. rewrite <- in_rev in P. tauto.
Qed.

Theorem well_formed_planned q : well_formed q -> exists p, plan_of q = Some p /\ width p = arity q.
Proof.
  induction q as [rows d|t q d IH|f rest names order limit IHf IHr] using stmt_ind'; intros WF.
  - destruct WF as (W1 & W2 & _). cbn. destruct (s_proj d) as [|x pr] eqn:EP; [congruence|].
    assert (PA : exists ag, plan_agg d = Some ag).
    { unfold plan_agg. destruct (s_group d), (s_aggs d), (s_distinct d); eauto; discriminate W2; auto. }
    destruct PA as [ag ->]. eexists. split; reflexivity.
  - destruct WF as (W1 & W2 & W3). cbn. destruct (s_proj d) as [|x pr] eqn:EP; [congruence|].
    assert (PA : exists ag, plan_agg d = Some ag).
    { unfold plan_agg. destruct (s_group d), (s_aggs d), (s_distinct d); eauto; discriminate W2; auto. }
    destruct PA as [ag ->]. destruct (IH W3) as (p & -> & _). eexists. split; reflexivity.
  - cbn in WF. destruct WF as (W1 & W2 & W3 & W4). destruct (IHf W1) as (pf & PF & WI). cbn. rewrite PF.
    assert (PS : exists ps, all_some (map (fun x : bool * stmt => plan_of (snd x)) rest) = Some ps /\
                  forall p', In p' ps -> width p' = arity f).
    { clear - IHr W4. induction rest as [|x rest IH]; [exists []; cbn; tauto|].
      inversion IHr as [|? ? I1 I2]; subst. cbn in W4. destruct W4 as ((W5 & W6) & W7).
      destruct (I1 W5) as (p & PX & WX). destruct (IH I2 W7) as (ps & PS & WS).
      exists (p :: ps). cbn. rewrite PX, PS. split; auto. intros p' [<-|Hp]; [congruence|auto]. }
    destruct PS as (ps & -> & WS).
    assert (UO : exists ord, union_order 0 names order = Some ord).
    { clear - W3. unfold union_order. induction order as [|[n asc] order IH]; [eexists; reflexivity|].
      cbn. destruct (name_slot_some n names) as [i ->]; [eapply W3; left; reflexivity|]. cbn.
      destruct IH as [ord ->]; [intros; eapply W3; right; eauto|]. eexists. reflexivity. }
    destruct UO as [ord ->].
    assert (FB : forallb (fun p' => width p' =? width pf) ps && (length names =? width pf) = true).
    { apply andb_true_iff. split; [|apply Nat.eqb_eq; congruence]. apply forallb_forall. intros p' Hp.
      apply Nat.eqb_eq. rewrite WI. auto. }
    rewrite FB. eexists. split; [reflexivity|]. exact WI.
Qed.
