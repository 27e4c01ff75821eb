(* C40: partitioned tables *)
From Verif.Part Require Import Model Spec Proofs.
From Coq Require Import List ZArith Bool Lia Permutation.
Import ListNotations.
Local Open Scope Z_scope.

(* the catalogues that CREATE TABLE and any sequence of partition DDL can leave behind *)
Inductive reachable : catalog -> Prop :=
| R_create lo hi primary iso qs c : create_partitions lo hi primary iso qs = Some c -> reachable c
| R_add c dyn qs c' : reachable c -> add_partition c dyn qs = Some c' -> reachable c'
| R_drop c dyn ns c' : reachable c -> drop_partition c dyn ns = Some c' -> reachable c'
| R_modify c dyn rs c' : reachable c -> modify_partition c dyn rs = Some c' -> reachable c'
| R_attr c primary iso : reachable c ->
    reachable {| c_parts := c_parts c; c_max := c_max c; c_primary := primary; c_iso := iso; c_lo := c_lo c; c_hi := c_hi c |}.

Lemma reachable_all c : reachable c -> well c /\ 0 <= c_max c /\ c_parts c <> [].
Proof.
  induction 1 as [? ? ? ? ? ? E|c dyn qs c' R (W & M & N) E|c dyn ns c' R (W & M & N) E|c dyn rs c' R (W & M & N) E|c ? ? R (W & M & N)].
  - apply create_ok in E. tauto.
  - apply add_ok in E; auto; [|lia]. destruct E as (E1 & E2 & E3 & E4). split; auto. split; [lia|].
    destruct (c_parts c) as [|p ps]; [congruence|]. intros X. specialize (E3 p (or_introl eq_refl)). rewrite X in E3. destruct E3.
  - destruct W as (W1 & W2 & W3 & W4). apply drop_ok in E; auto. destruct E as (E1 & E2 & E3 & E4). split; auto. split; [lia|auto].
  - apply modify_ok in E; auto. destruct E as (E1 & E2 & E3 & E4). split; auto. split; [lia|auto].
  - split; [|auto]. destruct W as (W1 & W2 & W3 & W4). repeat split; cbn; auto; apply W3; auto.
Qed.

(* C40 *)
Theorem C40_partitions_never_overlap c : reachable c ->
  c_parts c <> [] /\ NoDup (map p_name (c_parts c)) /\ NoDup (map p_id (c_parts c)) /\
  (forall p q z, In p (c_parts c) -> In q (c_parts c) -> holds p z -> holds q z ->
     p_type p = TAdditional -> p_type q = TAdditional -> p = q) /\
  (forall p q z T, In p (c_parts c) -> In q (c_parts c) -> holds p z -> holds q z -> usable T p -> usable T q -> p = q).
Proof.
  intros R. destruct (reachable_all c R) as ((A & B & C & D) & _ & N). split; auto. split; auto. split; auto. split.
  - intros p q z I J V V' E F. apply D; auto; [left; auto|exists z; auto].
  - intros p q z T I J V V' E F. apply D; auto; [right; exists T; auto|exists z; auto].
Qed.
Print Assumptions C40_partitions_never_overlap.

(* an id that was ever used is not given to another partition *)
Theorem C40_ids_are_not_reused c dyn qs c' : reachable c -> add_partition c dyn qs = Some c' ->
  (forall p, In p (c_parts c) -> p_id p <= c_max c) /\ c_max c <= c_max c' /\
  (forall p, In p (c_parts c) -> In p (c_parts c')) /\
  (forall p, In p (c_parts c') -> ~ In p (c_parts c) -> c_max c < p_id p).
Proof.
  intros R E. destruct (reachable_all c R) as (W & M & N). apply add_ok in E; auto; [|lia]. destruct E as (E1 & E2 & E3 & E4).
  split; [intros p I; apply W; auto|]. split; auto. split; auto. intros p I J. destruct (E4 p I); tauto.
Qed.
Theorem C40_ids_survive_drop_and_modify c c' :
  (exists dyn ns, drop_partition c dyn ns = Some c') \/ (exists dyn rs, modify_partition c dyn rs = Some c') -> reachable c ->
  c_max c' = c_max c /\ forall p, In p (c_parts c') -> In (p_id p) (map p_id (c_parts c)).
Proof.
  intros [(dyn & ns & E)|(dyn & rs & E)] R; destruct (reachable_all c R) as (W & M & N).
  - destruct W as (W1 & W2 & W3 & W4). apply drop_ok in E; auto. destruct E as (E1 & E2 & E3 & E4). split; auto. intros p I. apply in_map. auto.
  - apply modify_ok in E; auto. tauto.
Qed.
Print Assumptions C40_ids_are_not_reused.
Print Assumptions C40_ids_survive_drop_and_modify.

(* a new partition with a proper range and a new name is refused exactly if it overlaps a
   partition that some user works with at the same time *)
Theorem C40_add_refused_iff_overlap c n t cold l r :
  check_bound (c_lo c) (c_hi c) false l = true -> check_bound (c_lo c) (c_hi c) true r = true -> bcmp l r = Lt ->
  ~ In n (map p_name (c_parts c)) ->
  (add_partition c false [{| q_name := n; q_type := t; q_cold := cold; q_bounds := Between l r |}] = None <->
   exists p z, In p (c_parts c) /\ holds p z /\ from l z /\ before z r /\
     ((p_type p = TAdditional /\ t = TAdditional) \/
      (p_type p <> TAdditional /\ t <> TAdditional /\ (p_cold p = true \/ cold = true \/ p_type p = t)))).
Proof.
  intros A B C N. rewrite add_one; auto; [|apply check_range_spec; auto]. split.
  - intros (p & q & I & -> & S & z & V & V'). exists p, z. destruct V' as [V1 V2]. cbn in V1, V2. repeat split; auto; try apply V.
    destruct S as [[E F]|(T & [E F] & [G X])]; cbn in *; [auto|right]. split; auto. split; auto. destruct F as [F|F]; auto. destruct X as [X|X]; auto. right; right; congruence.
  - intros (p & z & I & V & V1 & V2 & S). eexists p, _. split; auto. split; [reflexivity|]. split; [|exists z; split; auto; split; auto].
    destruct S as [[E F]|(E & F & [G|[G|G]])]; [left; auto|right|right|right]; unfold usable; cbn.
    + exists t. auto.
    + exists (p_type p). auto.
    + exists t. auto.
Qed.
Print Assumptions C40_add_refused_iff_overlap.

(* DROP removes exactly the named partitions *)
Theorem C40_drop_is_exact c dyn ns c' : reachable c -> drop_partition c dyn ns = Some c' ->
  forall p, In p (c_parts c') <-> In p (c_parts c) /\ ~ In (p_name p) ns.
Proof. intros R E. destruct (reachable_all c R) as ((A & B & C & _) & _ & _). eapply drop_exact; eauto. Qed.
(* MODIFY ... COLD keeps the partition with its id and range, and drops exactly the other
   ordinary partitions with the same range *)
Theorem C40_modify_cold_is_exact c dyn p c' : reachable c -> In p (c_parts c) -> p_type p = c_primary c -> c_primary c <> TAdditional ->
  modify_partition c dyn [(p_name p, Some true)] = Some c' ->
  forall q, In q (c_parts c') <->
    q = {| p_name := p_name p; p_id := p_id p; p_type := p_type p; p_cold := true; p_left := p_left p; p_right := p_right p |} \/
    (In q (c_parts c) /\ q <> p /\ ~ (p_type q <> TAdditional /\ p_left q = p_left p /\ p_right q = p_right p)).
Proof. intros R. apply modify_cold_exact. apply reachable_all. auto. Qed.
(* VALUES LESS THAN: the partition of a type with the least bound above a value holds it *)
Theorem C40_less_than lo hi primary iso qs c q b z :
  create_partitions lo hi primary iso qs = Some c -> In q qs -> q_bounds q = Less b -> lo <= z -> before z b ->
  (forall q' b', In q' qs -> q' <> q -> q_type q' = q_type q -> q_bounds q' = Less b' -> before z b' -> bcmp b b' = Lt) ->
  exists p, In p (c_parts c) /\ p_name p = q_name q /\ p_type p = q_type q /\ p_cold p = q_cold q /\ p_right p = b /\ holds p z.
Proof. apply create_less. Qed.
Print Assumptions C40_drop_is_exact.
Print Assumptions C40_modify_cold_is_exact.
Print Assumptions C40_less_than.

(* a row goes to the one partition its user sees that holds its value; else it is refused *)
Theorem C40_row_to_its_partition c u z : reachable c -> u_switch u = false ->
  (exists p, calc_partition c u (Some z) false = (p_id p, -1) /\ In p (c_parts c) /\ sees u false p /\ holds p z /\
     (forall q, In q (c_parts c) -> sees u false q -> holds q z -> q = p)) \/
  (calc_partition c u (Some z) false = (-1, -1) /\ forall q, In q (c_parts c) -> sees u false q -> ~ holds q z).
Proof. intros R SW. apply write_ok; auto. apply reachable_all. auto. Qed.
Theorem C40_null_and_switched_rows_refused c u :
  fst (calc_partition c u None false) = -1 /\ (u_switch u = true -> forall v, calc_partition c u v false = (-1, -1)).
Proof.
  split; [|intros E v; unfold calc_partition; rewrite E; auto].
  unfold calc_partition. destruct (u_switch u); cbn [andb negb]; auto.
  destruct (u_additional u); cbn [fst]; apply find_id_none; intros p _; [apply within_null|rewrite within_null, andb_false_r; auto].
Qed.
Print Assumptions C40_row_to_its_partition.
Print Assumptions C40_null_and_switched_rows_refused.

(* every partition that its user sees and that can hold a row the WHERE clause lets through is
   read; e is the partition expression *)
Theorem C40_pruning_keeps_matching_rows c u e is_read w z p ids :
  reachable c -> u_switch u = false -> In p (c_parts c) -> sees u is_read p ->
  (exists x, e (Some z) = Some x /\ holds p x) -> passes w z ->
  e (Some z) = Some z ->
  select_range c u true e is_read w = Some ids -> In (p_id p) ids.
Proof. intros R SW I S X PW ID E. apply reachable_all in R. eapply select_ok; eauto; [tauto|discriminate]. Qed.
(* the same for a partition expression other than the column; for a range condition only the
   partitions of ordinary users *)
Theorem C40_pruning_by_expression_partial c u e is_read w z p ids :
  reachable c -> u_switch u = false -> In p (c_parts c) -> sees u is_read p ->
  (exists x, e (Some z) = Some x /\ holds p x) -> passes w z ->
  (forall l lo r ro, w = CRange l lo r ro -> p_type p <> TAdditional /\ u_additional u = false) ->
  select_range c u false e is_read w = Some ids -> In (p_id p) ids.
Proof.
  intros R SW I S X PW NA E. apply reachable_all in R. eapply select_ok; eauto; [tauto|discriminate|].
  intros _ l lo r ro Ew. destruct (NA _ _ _ _ Ew). auto.
Qed.
Print Assumptions C40_pruning_keeps_matching_rows.
Print Assumptions C40_pruning_by_expression_partial.

(* a row is found again by the user who wrote it *)
Theorem C40_written_row_is_read c u w z i ids :
  reachable c -> u_switch u = false -> fst (calc_partition c u (Some z) false) = i -> i <> -1 -> passes w z ->
  select_range c u true (fun v => v) true w = Some ids -> In i ids.
Proof.
  intros R SW E N PW ES. destruct (C40_row_to_its_partition c u z R SW) as [(p & E1 & I & S & V & _)|[E1 _]]; rewrite E1 in E; cbn in E; [|congruence].
  subst i. apply (C40_pruning_keeps_matching_rows c u (fun v => v) true w z p ids); auto; [|exists z; auto].
  unfold sees in *. destruct (u_additional u); [exact S|]. destruct S as [S|[X _]]; [auto|discriminate].
Qed.
Print Assumptions C40_written_row_is_read.

(* HASH: numbers from 0 on, and values of other types, have one partition from 0 to n-1, and
   the condition never prunes it *)
Theorem C40_hash_partition n v : 0 < n -> (forall z, v = HNum z -> 0 <= z) ->
  0 <= calc_hash n v < n /\
  (forall w ids, (match w with HIn vs => vs = [] \/ In v vs | HAll => True end) -> select_hash n w = Some ids -> In (calc_hash n v) ids).
Proof.
  intros N P. pose proof (calc_hash_range n v N P). split; auto. intros w ids Pw E. eapply select_hash_ok; eauto. lia.
Qed.
(* but a negative number that is no multiple of n has a negative partition: the row is refused,
   and so is the query *)
Theorem C40_negative_hash_refuted n z : 0 < n -> z < 0 -> z mod n <> 0 ->
  calc_hash n (HNum z) < 0 /\ (n <> 1 -> select_hash n (HIn [HNum z]) = None).
Proof.
  intros N Lz M. cbn [calc_hash].
  assert (X : Z.rem z n < 0).
  { pose proof (Z.rem_sign_nz z n ltac:(lia)) as S. assert (Y : Z.rem z n <> 0) by (rewrite Z.rem_mod_eq_0; auto; lia).
    specialize (S Y). rewrite (Z.sgn_neg z) in S by auto. apply Z.sgn_neg_iff. auto. }
  split; auto. intros N1. cbn [select_hash existsb calc_hash]. apply Z.eqb_neq in N1. rewrite N1. apply Z.ltb_lt in X. rewrite X. auto.
Qed.
Print Assumptions C40_hash_partition.
Print Assumptions C40_negative_hash_refuted.

(* ---- what does not hold ---- *)
Definition req n t cold l r := {| q_name := n; q_type := t; q_cold := cold; q_bounds := Between (BVal l) (BVal r) |}.
Definition less n t b := {| q_name := n; q_type := t; q_cold := false; q_bounds := Less b |}.

(* a partition expression and a range condition: the additional partitions are not read *)
Theorem C40_additional_not_read_refuted : exists c u p z l r ids,
  reachable c /\ u_switch u = false /\ In p (c_parts c) /\ sees u true p /\ holds p z /\ passes (CRange (Some l) false (Some r) false) z /\
  select_range c u false (fun v => v) true (CRange (Some l) false (Some r) false) = Some ids /\ ~ In (p_id p) ids.
Proof.
  destruct (create_partitions 0 1000 TDefault None [less 1 TDefault (BVal 10); req 2 TAdditional false 0 10]) as [c|] eqn:E; [|discriminate].
  exists c, {| u_additional := false; u_type := TDefault; u_switch := false |}.
  pose proof (R_create _ _ _ _ _ _ E) as R. vm_compute in E. injection E as E. subst c.
  eexists {| p_name := 2; p_id := _ |}, 5, 0, 9, _. split; [exact R|]. split; [auto|]. split; [right; left; reflexivity|].
  split; [right; auto|]. split; [cbn; unfold holds; cbn; lia|]. split; [cbn; lia|]. split; [reflexivity|]. cbn. lia.
Qed.
Print Assumptions C40_additional_not_read_refuted.

(* CREATE TABLE takes the same VALUES LESS THAN twice; one of the partitions can hold no row *)
Theorem C40_empty_partition_refuted : exists qs c p,
  create_partitions 0 1000 TDefault None qs = Some c /\ In p (c_parts c) /\ forall z, ~ holds p z.
Proof.
  eexists [less 1 TDefault (BVal 10); less 2 TDefault (BVal 10)], _, {| p_name := 2; p_id := 1 |}. split; [reflexivity|].
  split; [right; left; reflexivity|]. unfold holds. cbn. lia.
Qed.
Print Assumptions C40_empty_partition_refuted.

(* a reader of a switched table: two of the partitions they work with hold the same value *)
Theorem C40_switched_reader_refuted : exists c u p q z,
  reachable c /\ u_switch u = true /\ In p (c_parts c) /\ In q (c_parts c) /\ p <> q /\ holds p z /\ holds q z /\
  all_partitions c u true = Some [p_id p; p_id q] /\ calc_partition c u (Some z) true = (p_id q, -1).
Proof.
  destruct (create_partitions 0 1000 TDefault (Some 10) [req 1 TDefault false 0 10; req 2 TNew false 5 20]) as [c|] eqn:E; [|discriminate].
  exists c, {| u_additional := false; u_type := TDefault; u_switch := true |}.
  pose proof (R_create _ _ _ _ _ _ E) as R. vm_compute in E. injection E as E. subst c.
  eexists {| p_name := 1; p_id := _ |}, {| p_name := 2; p_id := _ |}, 7. split; [exact R|]. split; [auto|].
  split; [left; reflexivity|]. split; [right; left; reflexivity|]. split; [discriminate|].
  split; [unfold holds; cbn; lia|]. split; [unfold holds; cbn; lia|]. split; reflexivity.
Qed.
Print Assumptions C40_switched_reader_refuted.

(* ---- the hypotheses are met ---- *)
(* p1 below 10, p2 below 20, a new type of the second one, an additional partition, MAXVALUE *)
Definition c0 : option catalog :=
  create_partitions (-1000) 1000 TDefault None
    [less 2 TDefault (BVal 20); less 1 TDefault (BVal 10); req 3 TNew false 10 20; req 4 TAdditional false 0 15].
Definition c1 : option catalog := match c0 with None => None | Some c => add_partition c false [{| q_name := 5; q_type := TDefault; q_cold := false; q_bounds := Between (BVal 20) BMax |}] end.
Example reachable_example : match c1 with None => False | Some c => reachable c /\ map p_id (c_parts c) = [0; 1; 2; 3; 4] /\ map p_name (c_parts c) = [1; 4; 2; 3; 5] end.
Proof.
  unfold c1. destruct c0 as [c|] eqn:E0; [|discriminate]. destruct (add_partition c false _) as [c'|] eqn:E1.
  - split; [eapply R_add; [eapply R_create; exact E0|exact E1]|].
    vm_compute in E0. injection E0 as E0. subst c. vm_compute in E1. injection E1 as E1. subst c'. vm_compute. auto.
  - vm_compute in E0. injection E0 as E0. subst c. vm_compute in E1. discriminate.
Qed.
Definition u_old := {| u_additional := false; u_type := TDefault; u_switch := false |}.
Definition u_new := {| u_additional := false; u_type := TNew; u_switch := false |}.
Definition u_add := {| u_additional := true; u_type := TDefault; u_switch := false |}.
Example row_example : match c1 with None => False | Some c =>
  calc_partition c u_old (Some 12) false = (2, -1) /\ calc_partition c u_new (Some 12) false = (3, -1) /\
  calc_partition c u_add (Some 12) false = (1, -1) /\ calc_partition c u_old (Some 12) true = (2, 1) /\
  calc_partition c u_old (Some 5000) false = (4, -1) /\ calc_partition c u_new (Some 30) false = (-1, -1) end.
Proof. vm_compute. auto 10. Qed.
Example select_example : match c1 with None => False | Some c =>
  select_range c u_old true (fun v => v) true (CRange (Some 10) true (Some 20) true) = Some [2; 1] /\
  select_range c u_old true (fun v => v) true (CRange (Some 10) true (Some 20) false) = Some [2; 4; 1] /\
  select_range c u_old true (fun v => v) true (CIn [Some 5; Some 12; Some 100]) = Some [0; 1; 2; 1; 4] end.
Proof. vm_compute. auto. Qed.
(* a cold partition replaces the hot one of the other type with the same range *)
Definition c2 : option catalog :=
  create_partitions (-1000) 1000 TDefault None [req 1 TDefault false 0 10; req 2 TNew false 0 10; req 3 TDefault false 10 20].
Example modify_example : match c2 with None => False | Some c => match modify_partition c false [(1, Some true)] with
  None => False | Some c' => map p_name (c_parts c') = [1; 3] /\ map p_cold (c_parts c') = [true; false] /\ map p_id (c_parts c') = [0; 2] end end.
Proof. vm_compute. auto. Qed.
Example drop_example : match c1 with None => False | Some c => match drop_partition c false [4; 1] with
  None => False | Some c' => map p_id (c_parts c') = [2; 3; 4] end end.
Proof. vm_compute. auto. Qed.
Example add_refused_example : match c1 with None => False | Some c =>
  add_partition c false [req 9 TNew false 19 21] = None /\ add_partition c false [req 9 TNew true 25 30] = None /\
  add_partition c false [req 9 TNew false 25 30] <> None end.
Proof. vm_compute. repeat split; discriminate. Qed.
Example hash_example : calc_hash 7 (HNum 23) = 2 /\ select_hash 7 (HIn [HNum 23; HNum 24]) = Some [2; 3] /\ calc_hash 7 (HNum (-3)) = -3.
Proof. auto. Qed.
