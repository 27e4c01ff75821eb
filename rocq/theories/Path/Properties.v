(* C58: reading through an index returns exactly the selected rows.
   C59: ORDER BY served by the order of an index.
   C60: the keys read for one range of one region. *)
From Coq Require Import List ZArith Sorted Bool Lia.
From Verif Require Import Common.Bytes Common.KV Key.Model Key.Spec Like.Model Like.Spec Path.Model Path.Spec.
From Verif Require Import Path.Scan Path.Read.
Import ListNotations.
Local Open Scope Z_scope.

Theorem C58_index_access_exact_partial : forall E cs order p region forward l,
  query_ok E cs -> entries_ok E l -> plan_for E order cs = Some p ->
  (forall r, In r (answer E cs p region forward l) <->
             In r l /\ selected E cs r = true /\ in_region region (entry_key E r)) /\
  NoDup (answer E cs p region forward l).
Proof. intros. split; [intros; eapply answer_in; eauto|eapply answer_nodup; eauto]. Qed.
Print Assumptions C58_index_access_exact_partial.

(* where the planner decides that nothing can match, nothing matches *)
Theorem C58_no_ranges_nothing_selected_partial : forall E cs order r,
  query_ok E cs -> plan_for E order cs = None -> selected E cs r = false.
Proof. intros. eapply no_plan; eauto. Qed.
Print Assumptions C58_no_ranges_nothing_selected_partial.

(* two indexes of one table give the same rows *)
Theorem C58_any_index_same_rows_partial : forall E1 E2 cs order1 order2 p1 p2 l1 l2 f1 f2,
  (forall f, ct E1 f = ct E2 f) -> e_cs E1 = e_cs E2 ->
  query_ok E1 cs -> query_ok E2 cs -> entries_ok E1 l1 -> entries_ok E2 l2 -> (forall r, In r l1 <-> In r l2) ->
  plan_for E1 order1 cs = Some p1 -> plan_for E2 order2 cs = Some p2 ->
  forall r, In r (answer E1 cs p1 None f1 l1) <-> In r (answer E2 cs p2 None f2 l2).
Proof.
  intros E1 E2 cs o1 o2 p1 p2 l1 l2 f1 f2 T C Q1 Q2 L1 L2 LL P1 P2 r.
  rewrite (answer_in E1 cs o1 p1 Q1 P1 None f1 l1 r L1), (answer_in E2 cs o2 p2 Q2 P2 None f2 l2 r L2), LL.
  rewrite (selected_env E1 E2); auto. cbn. tauto.
Qed.
Print Assumptions C58_any_index_same_rows_partial.

Theorem C59_order_by_index_partial : forall E cs order p region (forward : bool) l,
  query_ok E cs -> entries_ok E l -> plan_for E order cs = Some p ->
  p_sort p = true -> (length (p_ranges p) <= 1)%nat ->
  StronglySorted (fun x y => if forward then order_of E order x y <> Gt else order_of E order y x <> Gt)
    (answer E cs p region forward l).
Proof. intros. eapply answer_sorted; eauto. Qed.
Print Assumptions C59_order_by_index_partial.

(* the keys of the range that lie in the region, in order and in reverse order *)
Theorem C60_range_keys_exact_partial : forall (A : Type) (key : A -> list Z) lopen ropen left right region (forward : bool) l,
  key_sorted key l -> Forall (fun x => key_ok (key x)) l ->
  let out := match iter_open lopen ropen (left, right) region with Some it => visit key forward it l | None => [] end in
  (forall x, In x out <-> In x l /\ above lopen left (key x) /\ below ropen right (key x) /\ in_region region (key x)) /\
  StronglySorted (fun x y => if forward then bcompare (key x) (key y) = Lt else bcompare (key y) (key x) = Lt) out.
Proof. intros. apply range_keys; auto. Qed.
Print Assumptions C60_range_keys_exact_partial.

(* ---- a case that meets the hypotheses ---- *)

(* columns 0 BIGINT, 1 and 2 VARCHAR; KEY (0, 1) with the primary key (2) *)
Definition ex_env : env := Env false (fun f => match f with O => INT64 | _ => STRING end) CUtf8 TKey [0; 1]%nat [2]%nat 100 0 false.
Definition ex_row (a : Z) (b c : list Z) : row := fun f => match f with O => Some (VNum a) | 1%nat => Some (VStr b) | 2%nat => Some (VStr c) | _ => None end.
Definition ex_rows : list row := [ex_row 1 [97] [49]; ex_row 1 [98] [50]; ex_row 2 [97] [51]; ex_row 2 [99] [52]; ex_row 3 [97] [53]].
(* a IN (2, 1) AND b >= 'a' AND b < 'c' *)
Definition ex_conds : list cond :=
  [CIn 0 [Some (VNum 2); Some (VNum 1)]; CCmp OGe 1 (Some (VStr [97])); CCmp OLt 1 (Some (VStr [99]))].

Lemma ex_entries : entries_ok ex_env ex_rows.
Proof.
  split.
  - unfold key_sorted, ex_rows. repeat (constructor; [|repeat (constructor; [vm_compute; reflexivity|]); constructor]). constructor.
  - unfold ex_rows. repeat (constructor; [split; [unfold index_row; cbn; repeat (constructor; [eexists; split; [reflexivity|cbn; unfold int_val_ok; cbn; repeat constructor; try lia; discriminate]|]); constructor
      |split; [vm_compute; repeat (constructor; [split; congruence|]); constructor|apply short_no_run; vm_compute; lia]]|]). constructor.
Qed.
Lemma ex_query : query_ok ex_env ex_conds.
Proof.
  split; [|split; [|split]].
  - unfold ex_conds. repeat (constructor; [cbn; unfold const_ok; cbn; unfold int_val_ok; cbn; repeat constructor; try lia; discriminate|]). constructor.
  - intros i j c d f Hi Hj N O. destruct i as [|[|[|[]]]]; cbn in Hi; inversion Hi; subst c; destruct O.
  - intros pre f post p g d _ H. cbn in H. destruct H as [H|[H|[H|[]]]]; discriminate.
  - left. cbn. repeat constructor; cbn; intuition discriminate.
Qed.
Example C58_case : exists p, plan_for ex_env [] ex_conds = Some p /\ length (p_ranges p) = 2%nat /\
  p_cut p = [2; 1; 0]%nat /\
  map (fun r => r 2%nat) (answer ex_env ex_conds p None true ex_rows) = [Some (VStr [51]); Some (VStr [49]); Some (VStr [50])].
Proof. eexists. split; [reflexivity|]. repeat split; vm_compute; reflexivity. Qed.
(* a = 2 AND b > 'a' ORDER BY b, c *)
Example C59_case : exists p, plan_for ex_env [1; 2]%nat [CCmp OEq 0 (Some (VNum 2)); CCmp OGt 1 (Some (VStr [96]))] = Some p /\
  p_sort p = true /\ length (p_ranges p) = 1%nat /\
  map (fun r => r 2%nat) (answer ex_env [] p None false ex_rows) = [Some (VStr [52]); Some (VStr [51])].
Proof. eexists. split; [reflexivity|]. repeat split; vm_compute; reflexivity. Qed.
(* keys from "b" (open) to "d" (closed) in the region that ends at "dc" *)
Example C60_case : match iter_open true false ([98], [100]) (Some ([97], [100; 99])) with
  | Some it => visit (fun k => k) true it [[97]; [98]; [98; 1]; [99]; [100]; [100; 5]; [100; 100]; [101]]
  | None => [] end = [[99]; [100]; [100; 5]].
Proof. vm_compute. reflexivity. Qed.
