(* C37: pre-aggregated rows do not depend on how the store batches merges.
   C49: a rollup row is the sum over the present base rows. *)
From Coq Require Import ZArith List Bool Permutation Lia.
From Verif Require Import Olap.Model Olap.Spec Olap.Proofs.
Import ListNotations.
Local Open Scope Z_scope.

(* Whatever the storage engine does to the history of a key (an optional value and operands,
   oldest first), a reader gets the same row.  With the partial-merge flag on and no value yet,
   this covers the summed columns and the version (see the refutation below for the others). *)
Theorem C37_any_grouping :
  forall t flag base ops base' ops',
    table_ok t -> (forall b, base = Some b -> row_ok t b) -> Forall (row_ok t) ops -> (base = None -> ops <> []) ->
    rewrites t flag (base, ops) (base', ops') ->
    exists v v', full_merge t base ops = Some v /\ full_merge t base' ops' = Some v' /\
      forall i, flag = false \/ base <> None \/ In i (map sf_idx (t_sums t)) \/ t_version t = Some i -> v i = v' i.
Proof.
  intros t flag base ops base' ops' Ht Hb Hr Hn Hrw.
  assert (Hs : hist_ok t (base, ops)) by (split; cbn [fst snd]; [destruct base; auto|exact Hr]).
  exact (grouping t flag (base, ops) (base', ops') Ht Hrw Hs).
Qed.
Print Assumptions C37_any_grouping.

(* ... and what the reader gets is the sum: of the base row and all deltas on a table without
   versions (or a rollup key), *)
Theorem C37_read_is_the_sum :
  forall t b ops f, table_ok t -> t_version t = None -> row_ok t b -> Forall (row_ok t) ops -> In f (t_sums t) ->
    exists r, full_merge t (Some b) ops = Some r /\
      is_sum (sf_kind f) (b (sf_idx f) :: map (fun o : row => o (sf_idx f)) ops) (r (sf_idx f)) /\
      (forall i, ~ In i (map sf_idx (t_sums t)) -> r i = b i).
Proof.
  intros t b ops f Ht Hv Hb Hr Hf. destruct (full_some t b ops Ht Hb Hr) as (r & E1 & E2 & _).
  exists r. split; [exact E1|]. split.
  - rewrite (column_sum t b ops r f Ht Hv Hf E2). apply fold_acc. intros v Ev. destruct Hb as [Hb _]. apply Hb; assumption.
  - intros i Hi. apply (other_columns t b ops r i Hv Hi E2).
Qed.
Print Assumptions C37_read_is_the_sum.

(* of the base row and the counted deltas on a table with versions; the version read is the
   newest one. *)
Theorem C37_read_is_the_sum_versioned :
  forall t vi b bv ops, table_ok t -> t_version t = Some vi -> row_ok t b -> Forall (row_ok t) ops -> b vi = Some bv ->
    exists r cs, full_merge t (Some b) ops = Some r /\ counted vi bv ops cs /\
      (forall f, In f (t_sums t) ->
         is_sum (sf_kind f) (b (sf_idx f) :: map (fun o : row => o (sf_idx f)) cs) (r (sf_idx f))) /\
      r vi = Some (fold_left Z.max (map (fun o : row => val (o vi)) ops) bv) /\
      (forall i, ~ In i (map sf_idx (t_sums t)) -> i <> vi -> r i = b i).
Proof.
  intros t vi b bv ops Ht Hv Hb Hr Eb.
  assert (Ho : Forall (fun o : row => o vi <> None) ops).
  { eapply Forall_impl; [|exact Hr]. intros o [_ Hov]. rewrite Hv in Hov. exact Hov. }
  destruct (column_sum_version t vi b bv ops Ht Hv Eb Ho) as (cs & r & Hc & E & Hf & Hoth & v & Ev & Hm).
  exists r, cs. unfold full_merge. rewrite E. repeat split; [exact Hc| |congruence|exact Hoth].
  intros f Hin. rewrite (Hf f Hin). apply fold_acc. intros x Ex. destruct Hb as [Hb _]. apply Hb; assumption.
Qed.
Print Assumptions C37_read_is_the_sum_versioned.

(* When the exact sum fits the column, the exact sum is read. *)
Theorem C37_exact_sum :
  forall k xs v, is_sum k xs (Some v) -> in_range k (total xs) -> v = total xs.
Proof.
  intros k xs v (_ & Rv & Md) Rt. pose proof (modulus_pos k) as Mp.
  apply Z.mod_divide in Md; [|lia]. destruct Md as [q E]. eapply in_range_inj with (q := q); [exact Rv|exact Rt|lia].
Qed.
Print Assumptions C37_exact_sum.

(* Delivering the newest delta again, however often, changes nothing (versions in use). *)
Theorem C37_redelivery_counts_once :
  forall t vi b ops o v n, table_ok t -> t_version t = Some vi -> row_ok t b -> Forall (row_ok t) (ops ++ [o]) ->
    o vi = Some v -> v <> 0 ->
    full_merge t (Some b) (ops ++ [o] ++ repeat o n) = full_merge t (Some b) (ops ++ [o]).
Proof.
  intros t vi b ops o v n Ht Hv Hb Hr Eo Nz.
  destruct (full_some t b (ops ++ [o]) Ht Hb Hr) as (r & E1 & E2 & _). rewrite E1. unfold full_merge.
  rewrite app_assoc, merge_ops_app, E2.
  apply Forall_app in Hr. destruct Hr as [Hr Hor]. inversion Hor as [|? ? Hok _]; subst.
  assert (Ge : exists rv, r vi = Some rv /\ v <= rv).
  { destruct (row_ok_ops t ops Ht b Hb Hr) as (b' & Eb' & Hb'). rewrite merge_ops_app, Eb' in E2. cbn [merge_ops] in E2.
    destruct (merge_step t b' o) as [r'|] eqn:Es; [|discriminate]. injection E2 as ->.
    unfold merge_step in Es. rewrite Hv, Eo in Es. destruct (b' vi) as [bv|] eqn:Ebv; [|discriminate].
    destruct (_ && _) eqn:C; injection Es as <-.
    - exists bv. split; [exact Ebv|]. apply andb_true_iff in C. destruct C as [C _]. apply Z.leb_le in C. exact C.
    - exists v. split; [|lia]. destruct Ht as [Hd Hnv]. rewrite Hv in Hnv. rewrite add_sums_other by exact Hnv. apply set_same. }
  destruct Ge as (rv & Erv & Hle).
  assert (Step : merge_step t r o = Some r).
  { unfold merge_step. rewrite Hv, Erv, Eo. replace (v <=? rv) with true by (symmetry; apply Z.leb_le; exact Hle).
    replace (v =? 0) with false by (symmetry; apply Z.eqb_neq; exact Nz). reflexivity. }
  assert (Rep : merge_ops t r (repeat o n) = Some r).
  { induction n as [|n IH]; cbn [repeat merge_ops]; [reflexivity|]. rewrite Step. exact IH. }
  rewrite Rep. reflexivity.
Qed.
Print Assumptions C37_redelivery_counts_once.

(* ---- a table that meets the hypotheses ---- *)
Definition clicks := {| sf_idx := 3; sf_kind := I64; sf_plain := true |}.
Definition shows := {| sf_idx := 4; sf_kind := U32; sf_plain := false |}.
Definition tab := {| t_sums := [clicks; shows]; t_version := Some 5 |}.
Definition rollup_tab := {| t_sums := [clicks]; t_version := None |}.
Definition mk (title clicks shows version : option Z) : row :=
  fun i => if i =? 2 then title else if i =? 3 then clicks else if i =? 4 then shows else if i =? 5 then version else None.

Lemma tab_ok : table_ok tab.
Proof. split; [repeat constructor; cbn; intuition lia|cbn; lia]. Qed.

Lemma mk_ok a c s v : -100 <= c <= 100 -> 0 <= s <= 100 -> row_ok tab (mk a (Some c) (Some s) (Some v)).
Proof.
  intros Hc Hs. split; [|cbn; discriminate]. intros f x [<-|[<-|[]]]; cbn; intros E; injection E as <-; lia.
Qed.

(* three deltas on an existing row, folded in two different ways *)
Example C37_example :
  let b := mk (Some 7) (Some 10) (Some 1) (Some 0) in
  let d1 := mk (Some 8) (Some 5) (Some 1) (Some 0) in
  let d2 := mk (Some 9) (Some (-2)) (Some 1) (Some 0) in
  row_ok tab b /\ Forall (row_ok tab) [d1; d2] /\
  exists v1 m, full_merge tab (Some b) [d1] = Some v1 /\ partial_merge tab d1 d2 = Some m /\
    rewrites tab true (Some b, [d1; d2]) (Some v1, [d2]) /\ rewrites tab true (Some b, [d1; d2]) (Some b, [m]) /\
    exists r, full_merge tab (Some v1) [d2] = Some r /\ r 3 = Some 13 /\ r 4 = Some 3 /\ r 2 = Some 7.
Proof.
  cbn zeta. split; [apply mk_ok; lia|]. split; [constructor; [apply mk_ok; lia|constructor; [apply mk_ok; lia|constructor]]|].
  eexists. eexists. split; [reflexivity|]. split; [reflexivity|]. split; [|split].
  - eapply rw_full with (o1 := [_]); [reflexivity|apply rw_refl].
  - eapply rw_partial with (o1 := []); [reflexivity|reflexivity|apply rw_refl].
  - eexists. split; [reflexivity|]. repeat split; vm_compute; reflexivity.
Qed.

(* ---- where grouping shows ---- *)

(* Partial merging (flag olap_enable_partial_merge) keeps the newer row's other columns, full
   merging the older row's: for the first rows of a key the title read depends on the grouping. *)
Theorem C37_partial_merge_other_columns_refuted :
  exists l r m v v', row_ok tab l /\ row_ok tab r /\ partial_merge tab l r = Some m /\
    full_merge tab None [l; r] = Some v /\ full_merge tab None [m] = Some v' /\ v 2 <> v' 2.
Proof.
  exists (mk (Some 7) (Some 10) (Some 1) (Some 0)), (mk (Some 8) (Some 10) (Some 1) (Some 0)).
  eexists. eexists. eexists. split; [apply mk_ok; lia|]. split; [apply mk_ok; lia|].
  split; [reflexivity|]. split; [reflexivity|]. split; [reflexivity|]. vm_compute. discriminate.
Qed.
Print Assumptions C37_partial_merge_other_columns_refuted.

(* One delta without version makes FullMergeV2 give up and return the old value: deltas merged in
   the same call are lost, deltas merged before are not. *)
Theorem C37_null_version_refuted :
  exists b d bad v v1 v2, row_ok tab b /\ row_ok tab d /\ bad 5 = None /\
    full_merge tab (Some b) [d; bad] = Some v /\ full_merge tab (Some b) [d] = Some v1 /\
    full_merge tab (Some v1) [bad] = Some v2 /\ v 3 = Some 10 /\ v2 3 = Some 15.
Proof.
  exists (mk None (Some 10) (Some 1) (Some 0)), (mk None (Some 5) (Some 1) (Some 3)), (mk None (Some 1) (Some 1) None).
  eexists. eexists. eexists. split; [apply mk_ok; lia|]. split; [apply mk_ok; lia|]. split; [reflexivity|].
  split; [reflexivity|]. split; [reflexivity|]. split; [reflexivity|]. split; vm_compute; reflexivity.
Qed.
Print Assumptions C37_null_version_refuted.

(* ---- rollup ---- *)

(* After any history of inserts and deletes of base rows with one rollup key, starting from none,
   every summed column of the rollup row is the sum over the rows present (modulo the type's
   size; exact when it fits, C37_exact_sum). *)
Theorem C49_rollup_is_the_sum_of_present_rows :
  forall t h l ds f, table_ok t -> t_version t = None -> In f (t_sums t) -> present h l -> h <> [] ->
    Forall (fun e => match e with Ins r => row_ok t r | Del _ => True end) h ->
    Forall2 (fun e d => match e with Ins r => rollup_delta t false r = Some d | Del r => rollup_delta t true r = Some d end) h ds ->
    exists r v, full_merge t None ds = Some r /\ r (sf_idx f) = Some v /\ in_range (sf_kind f) v /\
      (v - total (map (fun r : row => r (sf_idx f)) l)) mod modulus (sf_kind f) = 0.
Proof.
  intros t h l ds f Ht Hv Hf Hp Hne Hrows Hds.
  destruct (present_total t f h l Ht Hf Hp ds Hds) as [q Eq].
  assert (Hok : Forall (row_ok t) ds).
  { clear - Ht Hv Hrows Hds. induction Hds as [|e d h ds Hd _ IH]; constructor; inversion Hrows; subst.
    - exact (delta_row_ok t e d Ht Hv ltac:(assumption) Hd).
    - apply IH. assumption. }
  destruct Hds as [|e d h ds Hd Hds]; [congruence|]. inversion Hok as [|? ? Hd0 Hok']; subst.
  rewrite full_none. destruct (full_some t d ds Ht Hd0 Hok') as (r & E1 & E2 & _).
  exists r. rewrite E1. pose proof (column_sum t d ds r f Ht Hv Hf E2) as Ec.
  pose proof (fold_acc (sf_kind f) (map (fun o : row => o (sf_idx f)) ds) (d (sf_idx f))
    ltac:(intros x Ex; destruct Hd0 as [Hd0 _]; apply Hd0; assumption)) as Sm.
  rewrite <- Ec in Sm. unfold is_sum in Sm. destruct (delta_col t f e d Ht Hf Hd) as (dv & _ & Edv & _).
  destruct (r (sf_idx f)) as [v|].
  - exists v. destruct Sm as (_ & Rg & Md). repeat split; [exact Rg|].
    cbn [map] in Eq. rewrite Eq in Md. rewrite <- Md.
    replace (v - total (map (fun r0 : row => r0 (sf_idx f)) l))
      with (v - (total (map (fun r0 : row => r0 (sf_idx f)) l) + q * modulus (sf_kind f)) + q * modulus (sf_kind f)) by lia.
    apply Z.mod_add. pose proof (modulus_pos (sf_kind f)); lia.
  - inversion Sm; congruence.
Qed.
Print Assumptions C49_rollup_is_the_sum_of_present_rows.

Example C49_example :
  let r1 := mk None (Some 5) None None in let r2 := mk None (Some (-3)) None None in
  present [Ins r1; Ins r2; Del r1] [r2] /\
  exists d1 d2 d3 r, rollup_delta rollup_tab false r1 = Some d1 /\ rollup_delta rollup_tab false r2 = Some d2 /\
    rollup_delta rollup_tab true r1 = Some d3 /\ full_merge rollup_tab None [d1; d2; d3] = Some r /\ r 3 = Some (-3).
Proof.
  cbn zeta. split.
  - eapply (pr_del [Ins _; Ins _]); [eapply (pr_ins [Ins _]); eapply (pr_ins []); constructor|]. apply perm_swap.
  - eexists. eexists. eexists. eexists. split; [reflexivity|]. split; [reflexivity|]. split; [reflexivity|]. split; [reflexivity|]. vm_compute. reflexivity.
Qed.

(* A rollup index over a column of another integer type cannot be kept up to date: every delete
   of a base row fails. *)
Theorem C49_delete_other_types_refuted :
  exists t, table_ok t /\ forall r, rollup_delta t true r = None.
Proof. exists tab. split; [exact tab_ok|reflexivity]. Qed.
Print Assumptions C49_delete_other_types_refuted.
