(* The semi join over a hash map of outer rows, which loses a row when it has matched. *)
From Coq Require Import List ZArith Bool Arith Lia Sorting.Permutation.
From Verif Require Import Common.Bytes Common.KV Key.Model Join.Model Join.Spec Join.Keys Join.Exec Join.Rows Subquery.ApplyModel Subquery.ApplyExec.
Import ListNotations.

Section Hash.
Variables (n : nat) (oids iids : list nat) (cs : list jcond) (limit : option nat) (okey ikey : row -> list Z).
Notation res := (result_row n oids iids).
Notation sat := (sat n oids iids cs).
Notation stopped := (stopped limit).
(* [o] and [i] are partners *)
Definition partner (o i : row) : bool := beqb (okey o) (ikey i) && sat o i.
(* the outer rows with a partner in [is] *)
Definition wanted (rows is : list row) : list row := filter (fun o => existsb (partner o) is) rows.
Definition holds_map (m : hashmap) (rows : list row) : Prop := forall k, m k = filter (fun r => beqb (okey r) k) rows.
(* [r] is the outer row [o] with a partner *)
Definition made_of (is : list row) (r o : row) : Prop := exists i, In i is /\ partner o i = true /\ r = res o i.

Lemma bucket_spec cap i : forall ms kept b cnt,
  match outer_map_bucket n oids iids ASemi cs limit cap i ms kept b cnt with
  | (Used b' cnt' _, l) => b' = b ++ map (fun o => res o i) (filter (fun o => sat o i) ms) /\ cnt' = (cnt + length (filter (fun o => sat o i) ms))%nat /\
                           l = kept ++ filter (fun o => negb (sat o i)) ms
  | (Limit b', _) => exists pre rest, ms = pre ++ rest /\ b' = b ++ map (fun o => res o i) (filter (fun o => sat o i) pre) /\
                                      stopped (cnt + length (filter (fun o => sat o i) pre))
  | (Full b' cnt' _, l) => exists pre rest, ms = pre ++ rest /\ b' = b ++ map (fun o => res o i) (filter (fun o => sat o i) pre) /\
                           cnt' = (cnt + length (filter (fun o => sat o i) pre))%nat /\ (cap <= length b')%nat /\
                           l = kept ++ filter (fun o => negb (sat o i)) pre ++ rest
  end.
Proof.
  induction ms as [|o q IH]; intros kept b cnt; cbn [outer_map_bucket].
  { cbn. rewrite !app_nil_r, Nat.add_0_r. auto. }
  destruct (reached_limit limit cnt) eqn:RL.
  { exists [], (o :: q). cbn. rewrite app_nil_r, Nat.add_0_r. repeat split; auto. now apply reached. }
  destruct (is_full cap b) eqn:FU.
  { apply Nat.leb_le in FU. exists [], (o :: q). cbn. rewrite app_nil_r, Nat.add_0_r. auto. }
  unfold construct_result_batch. fold (sat o i). cbn [filter]. destruct (sat o i) eqn:SA; cbn [negb].
  - specialize (IH kept (b ++ [res o i]) (S cnt)).
    destruct (outer_map_bucket n oids iids ASemi cs limit cap i q kept (b ++ [res o i]) (S cnt)) as [[b' cnt' m|b'|b' cnt' r] l].
    + destruct IH as (-> & -> & ->). rewrite <- app_assoc. cbn. repeat split. lia.
    + destruct IH as (pre & rest & -> & -> & ST). exists (o :: pre), rest. cbn [filter app]. rewrite SA, <- app_assoc. cbn. repeat split; auto. now rewrite Nat.add_succ_r.
    + destruct IH as (pre & rest & -> & -> & -> & C & ->). exists (o :: pre), rest. cbn [filter app]. rewrite SA. cbn [negb]. rewrite <- app_assoc in *. cbn in *. repeat split; auto; lia.
  - specialize (IH (kept ++ [o]) b cnt).
    destruct (outer_map_bucket n oids iids ASemi cs limit cap i q (kept ++ [o]) b cnt) as [[b' cnt' m|b'|b' cnt' r] l].
    + destruct IH as (-> & -> & ->). rewrite <- app_assoc. auto.
    + destruct IH as (pre & rest & -> & -> & ST). exists (o :: pre), rest. cbn [filter app]. rewrite SA. auto.
    + destruct IH as (pre & rest & -> & -> & -> & C & ->). exists (o :: pre), rest. cbn [filter app]. rewrite SA. cbn [negb]. rewrite <- app_assoc. repeat split; auto.
Qed.

Lemma wanted_perm rows rows' is : Permutation rows rows' -> Permutation (wanted rows is) (wanted rows' is).
Proof. apply perm_filter. Qed.
Lemma filter_split {A} (p : A -> bool) l : Permutation (filter p l ++ filter (fun x => negb (p x)) l) l.
Proof.
  induction l as [|x l IH]; [constructor|]. cbn [filter]. destruct (p x); cbn [negb app]; [now constructor|].
  rewrite <- Permutation_middle. now constructor.
Qed.
Lemma filter_id {A} (p : A -> bool) l : (forall x, In x l -> p x = true) -> filter p l = l.
Proof. induction l as [|x l IH]; intros K; [reflexivity|]. cbn [filter]. rewrite K by now left. f_equal. apply IH. intros. apply K. now right. Qed.
Lemma filter_none {A} (p : A -> bool) l : (forall x, In x l -> p x = false) -> filter p l = [].
Proof. induction l as [|x l IH]; intros K; [reflexivity|]. cbn [filter]. rewrite K by now left. apply IH. intros. apply K. now right. Qed.

(* [pre] of the bucket of [i] has been tried *)
Section Step.
Variables (m : hashmap) (rows : list row) (i : row) (pre rest : list row).
Hypothesis HM : holds_map m rows.
Hypothesis Split : m (ikey i) = pre ++ rest.
Let d := filter (fun o => sat o i) pre.
Let now := (filter (fun o => negb (sat o i)) pre ++ rest) ++ filter (fun r => negb (beqb (okey r) (ikey i))) rows.
Lemma pre_key o : In o (pre ++ rest) -> In o rows /\ okey o = ikey i.
Proof. rewrite <- Split, HM, filter_In, beqb_eq. tauto. Qed.
Lemma step_map : holds_map (update_map m (ikey i) (filter (fun o => negb (sat o i)) pre ++ rest)) now.
Proof.
  intros k. unfold update_map, now. rewrite filter_app. destruct (beqb (ikey i) k) eqn:E.
  - apply beqb_eq in E. subst k.
    rewrite (filter_id (fun r => beqb (okey r) (ikey i)) (_ ++ rest)), (filter_none (fun r => beqb (okey r) (ikey i))); [now rewrite app_nil_r| |].
    + intros x Hx. apply filter_In in Hx as [_ Hx]. now apply negb_true_iff in Hx.
    + intros x Hx. apply beqb_eq, pre_key. rewrite in_app_iff, filter_In in *. tauto.
  - rewrite (filter_none (fun r => beqb (okey r) k) (_ ++ rest)).
    + cbn [app]. rewrite filter_filter, HM. apply filter_ext. intros x. destruct (beqb (okey x) k) eqn:E1; [|now rewrite andb_false_r].
      apply beqb_eq in E1. subst k. destruct (beqb (okey x) (ikey i)) eqn:E2; [|reflexivity]. apply beqb_eq in E2. rewrite E2 in E.
      assert (X : beqb (ikey i) (ikey i) = true) by now apply beqb_eq. congruence.
    + intros x Hx. destruct (pre_key x) as [_ E1]; [rewrite in_app_iff, filter_In in *; tauto|]. now rewrite E1.
Qed.
Lemma step_rows : Permutation (d ++ now) rows.
Proof.
  unfold d, now. rewrite !app_assoc. rewrite (filter_split (fun o => sat o i) pre). rewrite <- Split, HM. apply filter_split.
Qed.
Lemma step_wanted js : Permutation (d ++ wanted now (i :: js)) (wanted rows (i :: js)).
Proof.
  rewrite <- (wanted_perm _ _ (i :: js) step_rows). unfold wanted. rewrite filter_app. apply Permutation_app_tail.
  rewrite filter_id; [reflexivity|]. intros o Ho. unfold d in Ho. apply filter_In in Ho as [Ho SA]. cbn [existsb]. unfold partner at 1. rewrite SA, andb_true_r.
  destruct (pre_key o) as [_ E]; [apply in_or_app; now left|]. apply beqb_eq in E. now rewrite E.
Qed.
Lemma step_done js : rest = [] -> wanted now (i :: js) = wanted now js.
Proof.
  intros ->. apply filter_ext_in. intros o Ho. cbn [existsb]. assert (E : partner o i = false); [|now rewrite E].
  unfold partner. unfold now in Ho. rewrite app_nil_r, in_app_iff, !filter_In, !negb_true_iff in Ho. destruct Ho as [[_ ->]|[_ ->]]; [apply andb_false_r|reflexivity].
Qed.
Lemma step_made : Forall2 (made_of [i]) (map (fun o => res o i) d) d.
Proof.
  assert (K : forall o, In o d -> partner o i = true).
  { intros o Ho. unfold d in Ho. apply filter_In in Ho as [Ho SA]. unfold partner. rewrite SA, andb_true_r. apply beqb_eq, pre_key, in_or_app. now left. }
  induction d as [|o q IH]; cbn; [constructor|]. constructor; [|apply IH; intros; apply K; now right].
  exists i. split; [now left|]. split; [apply K; now left|reflexivity].
Qed.
End Step.

Lemma made_weaken is js d outs : incl is js -> Forall2 (made_of is) d outs -> Forall2 (made_of js) d outs.
Proof. intros I0. induction 1 as [|r o d outs (i & A & B) F IH]; constructor; auto. exists i. auto. Qed.

Lemma rows_spec cap : forall is m rows b cnt, holds_map m rows ->
  match outer_map_rows n oids iids ASemi cs limit cap ikey m is b cnt with
  | SDone b' m' cnt' => exists d outs now, b' = b ++ d /\ cnt' = (cnt + length d)%nat /\ holds_map m' now /\ Forall2 (made_of is) d outs /\
                        forall js, Permutation (outs ++ wanted now js) (wanted rows (is ++ js))
  | SLimit b' => exists d outs, b' = b ++ d /\ stopped (cnt + length d) /\ Forall2 (made_of is) d outs /\
                 forall js, exists more, Permutation (outs ++ more) (wanted rows (is ++ js))
  | SFull b' m' is' cnt' => exists d outs now, b' = b ++ d /\ cnt' = (cnt + length d)%nat /\ (cap <= length b')%nat /\ holds_map m' now /\
                            Forall2 (made_of is) d outs /\ incl is' is /\
                            forall js, Permutation (outs ++ wanted now (is' ++ js)) (wanted rows (is ++ js))
  end.
Proof.
  induction is as [|i q IH]; intros m rows b cnt HM; cbn [outer_map_rows].
  { exists [], [], rows. rewrite app_nil_r, Nat.add_0_r. repeat split; auto. }
  pose proof (bucket_spec cap i (m (ikey i)) [] b cnt) as X.
  destruct (outer_map_bucket n oids iids ASemi cs limit cap i (m (ikey i)) [] b cnt) as [[b' cnt' x|b'|b' cnt' r] l].
  - destruct X as (-> & -> & ->). cbn [app].
    assert (SP : m (ikey i) = m (ikey i) ++ []) by now rewrite app_nil_r.
    pose proof (step_map m rows i (m (ikey i)) [] HM SP) as HM'. rewrite app_nil_r in HM'.
    pose proof (step_made m rows i (m (ikey i)) [] HM SP) as MK.
    pose proof (fun js => step_wanted m rows i (m (ikey i)) [] HM SP js) as WA.
    pose proof (fun js => step_done m rows i (m (ikey i)) [] SP js eq_refl) as WD.
    set (d1 := filter (fun o => sat o i) (m (ikey i))) in *.
    rewrite app_nil_r in WA, WD.
    set (now1 := filter (fun o => negb (sat o i)) (m (ikey i)) ++ filter (fun r => negb (beqb (okey r) (ikey i))) rows) in *.
    specialize (IH _ now1 (b ++ map (fun o => res o i) d1) (cnt + length d1)%nat HM').
    assert (WX : forall js, Permutation (d1 ++ wanted now1 js) (wanted rows (i :: js))) by (intros js; rewrite <- (WA js), WD; reflexivity).
    assert (LD : length (map (fun o => res o i) d1) = length d1) by apply map_length.
    destruct (outer_map_rows n oids iids ASemi cs limit cap ikey _ q _ _) as [b' m' cnt'|b'|b' m' is' cnt'].
    + destruct IH as (d & outs & now & -> & -> & H1 & H2 & H3). exists (map (fun o => res o i) d1 ++ d), (d1 ++ outs), now.
      rewrite <- !app_assoc, app_length, LD. repeat split; auto; try lia.
      * apply Forall2_app; eapply made_weaken; eauto; intros z Hz; cbn in *; tauto.
      * intros js. rewrite <- app_assoc, H3. apply (WX (q ++ js)).
    + destruct IH as (d & outs & -> & ST & H2 & H3). exists (map (fun o => res o i) d1 ++ d), (d1 ++ outs).
      rewrite <- !app_assoc, app_length, LD, Nat.add_assoc. repeat split; auto.
      * apply Forall2_app; eapply made_weaken; eauto; intros z Hz; cbn in *; tauto.
      * intros js. destruct (H3 js) as (more & H4). exists more. rewrite <- app_assoc, H4. apply (WX (q ++ js)).
    + destruct IH as (d & outs & now & -> & -> & C & H1 & H2 & H3 & H4). exists (map (fun o => res o i) d1 ++ d), (d1 ++ outs), now.
      rewrite <- !app_assoc in *. rewrite (app_length _ d), LD. repeat split; auto; try lia.
      * apply Forall2_app; eapply made_weaken; eauto; intros z Hz; cbn in *; tauto.
      * intros z Hz. right. auto.
      * intros js. rewrite <- app_assoc, H4. apply (WX (q ++ js)).
  - destruct X as (pre & rest & SP & -> & ST).
    pose proof (step_made m rows i pre rest HM SP) as MK.
    pose proof (fun js => step_wanted m rows i pre rest HM SP js) as WA.
    eexists _, (filter (fun o => sat o i) pre). split; [reflexivity|]. rewrite map_length. repeat split; auto.
    + eapply made_weaken; eauto. intros z Hz; cbn in *; tauto.
    + intros js. eexists. apply (WA (q ++ js)).
  - destruct X as (pre & rest & SP & -> & -> & C & ->). cbn [app].
    pose proof (step_map m rows i pre rest HM SP) as HM'.
    pose proof (step_made m rows i pre rest HM SP) as MK.
    pose proof (fun js => step_wanted m rows i pre rest HM SP js) as WA.
    eexists _, (filter (fun o => sat o i) pre), _. split; [reflexivity|]. rewrite map_length. repeat split; eauto.
    + eapply made_weaken; eauto. intros z Hz; cbn in *; tauto.
    + intros z Hz. exact Hz.
Qed.
End Hash.
