(* C31: every key is routed to the region that owns it.
   C32: learning about splits and merges keeps the routing table gap-free. *)
From Coq Require Import ZArith List Bool Lia.
From Verif Require Import Common.Bytes Common.KV.
From Verif Require Import Route.Model Route.Spec Route.Proofs Route.ProofsUpd Route.ProofsStep Route.ProofsTop.
Import ListNotations.
Local Open Scope Z_scope.

(* ---- C31 ---- *)

(* A record goes to a region that owns its key, and no other region owns it. *)
Theorem C31_record_to_its_owner :
  forall t rs k, good t rs ->
    exists r, route_record t k = Some (r_id r) /\ In r rs /\ owns r k /\
      (forall r', In r' rs -> owns r' k -> r' = r).
Proof.
  intros t rs k G. destruct (route_record_ok t rs G k) as (r & E & I & O). exists r. repeat split; auto; try apply O.
  intros r' I' O'. symmetry. eapply sorted_owner_unique; eauto. apply good_sorted with (t := t). exact G.
Qed.
Print Assumptions C31_record_to_its_owner.

(* A range read reaches every region that holds a key of the range, *)
Theorem C31_range_reaches_every_region :
  forall t rs is_eq g k r, good t rs -> (is_eq = true -> g_lopen g = false) ->
    wanted is_eq g k -> In r rs -> owns r k -> In (r_id r) (route_range t is_eq g).
Proof. intros. eapply route_range_ok; eauto. Qed.
Print Assumptions C31_range_reaches_every_region.

(* and only regions that hold a key between its bounds (the bounds taken as closed). *)
Theorem C31_range_reaches_no_far_region :
  forall t rs is_eq g i, good t rs -> (is_eq = true -> g_lopen g = false) ->
    is_eq = true \/ g_right g = [] \/ upto (g_left g) (g_right g) \/ prefix_of (g_right g) (g_left g) ->
    In i (route_range t is_eq g) ->
    exists r k, In r rs /\ r_id r = i /\ owns r k /\ upto (g_left g) k /\
      (let stop := if is_eq then g_left g else g_right g in stop = [] \/ upto k stop \/ prefix_of stop k).
Proof. intros. eapply route_range_tight; eauto. Qed.
Print Assumptions C31_range_reaches_no_far_region.

(* With several ranges, each region is told exactly the numbers of the ranges that are
   routed to it, in one list. *)
Theorem C31_ranges_are_distributed :
  forall t is_eq gs,
    NoDup (map fst (route_ranges t is_eq gs)) /\
    forall id n, (exists l, In (id, l) (route_ranges t is_eq gs) /\ In n l) <->
                 (exists g, nth_error gs n = Some g /\ In id (route_range t is_eq g)).
Proof.
  intros t is_eq gs. split; [apply route_ranges_from_nodup; constructor|]. intros id n.
  change (asked (route_ranges t is_eq gs) id n <-> (exists g, nth_error gs n = Some g /\ In id (route_range t is_eq g))).
  unfold route_ranges. rewrite route_ranges_from_asked. split.
  - intros [(g & p & E & -> & I)|(l & [] & _)]. eauto.
  - intros (g & E & I). left. exists g, n. auto.
Qed.
Print Assumptions C31_ranges_are_distributed.

(* What a transaction wrote to a region that has since been split or merged is found again:
   the regions asked are exactly those that hold a key of [start, stop). *)
Theorem C31_old_region_to_new_ones :
  forall t rs start stop i, good t rs -> before_end start stop ->
    (In i (route_region t start stop) <->
     exists r k, In r rs /\ r_id r = i /\ owns r k /\ upto start k /\ before_end k stop).
Proof. intros. eapply route_region_ok; eauto. Qed.
Print Assumptions C31_old_region_to_new_ones.

(* The consistency check of the importer accepts every complete table, and what it accepts
   (when each entry names a known region starting there) has no gap and no overlap. *)
Theorem C31_check_accepts_complete_tables :
  forall t rs, good t rs -> check_consecutive t = true.
Proof. intros t rs G. eapply check_consecutive_complete; eauto. Qed.
Print Assumptions C31_check_accepts_complete_tables.
Theorem C31_check_refuses_gaps :
  forall t, ksorted (t_keys t) -> t_keys t <> [] ->
    (forall k id, In (k, id) (t_keys t) -> exists r, t_infos t id = Some r /\ r_id r = id /\ r_start r = k) ->
    check_consecutive t = true -> exists rs, tile [] rs [] /\ lists t rs.
Proof. exact check_consecutive_sound. Qed.
Print Assumptions C31_check_refuses_gaps.

(* Outside a complete table a record may be dropped without an error. *)
Theorem C31_record_dropped_refuted :
  exists t k r, t_keys t = [(r_start r, r_id r)] /\ t_infos t (r_id r) = Some r /\ route_record t k = None.
Proof.
  exists {| t_keys := [([5], 1)]; t_infos := fun _ => Some {| r_id := 1; r_start := [5]; r_end := []; r_ver := 1; r_deleted := false |} |},
    [3], {| r_id := 1; r_start := [5]; r_end := []; r_ver := 1; r_deleted := false |}.
  repeat split.
Qed.
Print Assumptions C31_record_dropped_refuted.

(* three regions, and some lookups *)
Definition reg i s e v := {| r_id := i; r_start := s; r_end := e; r_ver := v; r_deleted := false |}.
Definition three := [reg 1 [] [10] 3; reg 2 [10] [20; 1] 7; reg 3 [20; 1] [] 1].
Definition three_table := update_regions empty_table [reg 3 [20; 1] [] 1; reg 1 [] [10] 3; reg 2 [10] [20; 1] 7].
Lemma three_ok : complete three /\ Forall (fun r => r_deleted r = false /\ 0 <= r_ver r) three.
Proof.
  split.
  - split; [cbn; unfold before_end, below; cbn; repeat split; auto; discriminate|].
    repeat constructor; cbn; intuition discriminate.
  - repeat constructor; cbn; lia.
Qed.
Lemma three_good : good three_table three /\ no_others three_table three.
Proof.
  destruct three_ok as [C F]. apply load; auto. intros r. unfold three. cbn. tauto.
Qed.
Example three_lookups :
  route_record three_table [20; 0] = Some 2 /\ route_record three_table [20; 1] = Some 3 /\
  route_range three_table false {| g_left := [10]; g_full := false; g_lopen := true; g_right := [20]; g_ropen := false |} = [2; 3] /\
  route_range three_table false {| g_left := [10]; g_full := false; g_lopen := false; g_right := [20]; g_ropen := true |} = [2] /\
  route_range three_table true {| g_left := [20]; g_full := false; g_lopen := false; g_right := []; g_ropen := false |} = [2; 3] /\
  route_region three_table [5] [10] = [1] /\ check_consecutive three_table = true.
Proof. vm_compute. repeat split. Qed.

(* ---- C32 ---- *)

(* The first heartbeat: a complete set of regions, in any order and with repetitions, is
   taken over exactly. *)
Theorem C32_first_load :
  forall rs batch, complete rs -> Forall (fun r => r_deleted r = false /\ 0 <= r_ver r) rs ->
    (forall r, In r batch <-> In r rs) ->
    good (update_regions empty_table batch) rs /\ no_others (update_regions empty_table batch) rs.
Proof. exact load. Qed.
Print Assumptions C32_first_load.

(* Any heartbeat about regions that fit the table leaves a table without gap or overlap,
   whatever mix of splits, merges, stale, unknown and partly reported regions it has. *)
Theorem C32_no_gap_no_overlap :
  forall t rs batch, good t rs -> no_others t rs -> fits t batch ->
    exists rs', good (update_regions t batch) rs'.
Proof.
  intros t rs batch G N F. destruct (update_regions_inv t rs batch False G F N (fun f => match f with end)) as (rs' & G' & _). eauto.
Qed.
Print Assumptions C32_no_gap_no_overlap.

(* The table stays so through every sequence of heartbeats that each report regions of one
   state of the cluster and do not hide a split followed by a merge. *)
Inductive heard : table -> Prop :=
| heard_first rs batch : complete rs -> Forall (fun r => r_deleted r = false /\ 0 <= r_ver r) rs ->
    (forall r, In r batch <-> In r rs) -> heard (update_regions empty_table batch)
| heard_more t batch : heard t -> fits t batch -> (forall rs, good t rs -> of_one_state t rs batch) ->
    heard (update_regions t batch).
Theorem C32_history_partial :
  forall t, heard t -> exists rs, good t rs /\ no_others t rs.
Proof.
  intros t Ht. induction Ht as [rs batch C F E|t batch Ht IH F O].
  - exists rs. apply load; auto.
  - destruct IH as (rs & G & N). destruct (update_regions_inv t rs batch True G F N (fun _ => O rs G)) as (rs' & G' & N').
    exists rs'. split; auto.
Qed.
Print Assumptions C32_history_partial.

(* A split, a merge, a merge followed by a split, and a change of version are learned when
   they are reported in full: the old regions M1, o of the interval [s, e) become r0, news;
   r0 is o with a newer version and the others are unknown. *)
Theorem C32_split_and_merge_are_learned :
  forall t A M1 o B s e r0 news batch,
    good t (A ++ (M1 ++ [o]) ++ B) -> tile s (M1 ++ [o]) e -> tile s (r0 :: news) e ->
    r_id r0 = r_id o -> r_ver o < r_ver r0 -> M1 = [] \/ s <> [] ->
    Forall (fun r => r_deleted r = false /\ 0 <= r_ver r) (r0 :: news) -> NoDup (map r_id (r0 :: news)) ->
    Forall (fun r => t_infos t (r_id r) = None) news ->
    (forall r, In r batch <-> In r (r0 :: news)) ->
    good (update_regions t batch) (A ++ (r0 :: news) ++ B).
Proof. exact learn. Qed.
Print Assumptions C32_split_and_merge_are_learned.

(* A merge into the region that begins at the smallest key is never learned (the store
   does not start such merges). *)
Theorem C32_merge_at_smallest_key_refuted :
  exists t rs batch, good t rs /\ no_others t rs /\ fits t batch /\ of_one_state t rs batch /\
    complete batch /\ t_keys (update_regions t batch) = t_keys t /\ ~ good (update_regions t batch) batch.
Proof.
  set (b := [reg 2 [] [20; 1] 8; reg 3 [20; 1] [] 1]).
  exists three_table, three, b. destruct three_good as [G N]. split; auto. split; auto.
  assert (D : forall r, In r b -> r = reg 2 [] [20; 1] 8 \/ r = reg 3 [20; 1] [] 1) by (unfold b; cbn; intuition).
  split.
  { split; [|split].
    - intros r I. destruct (D _ I) as [->| ->]; cbn; repeat split; try lia; intros _; [right|left]; reflexivity.
    - intros r r' I I'. destruct (D _ I) as [->| ->], (D _ I') as [->| ->]; cbn; intros E; auto; discriminate.
    - intros r o I. destruct (D _ I) as [->| ->]; cbn; intros E; injection E as <-; cbn; intros X; auto; discriminate. }
  split.
  { split.
    - intros r r' I I' _ _. destruct (D _ I) as [->| ->], (D _ I') as [->| ->]; cbn; intros X; try discriminate X.
      split; [discriminate|left; reflexivity].
    - intros r o I _ Io E. destruct (D _ I) as [->| ->]; cbn in *.
      + exists (reg 2 [10] [20; 1] 7). split; auto. right. reflexivity.
      + exists (reg 3 [20; 1] [] 1). split; auto. left. reflexivity. }
  split.
  { split; [cbn; unfold before_end, below; cbn; repeat split; auto; discriminate|]. repeat constructor; cbn; intuition discriminate. }
  split; [vm_compute; reflexivity|]. intros [_ [K _]]. vm_compute in K. discriminate.
Qed.
Print Assumptions C32_merge_at_smallest_key_refuted.

(* Region 2 splits and its left half is then merged into the new region 9 before the next
   heartbeat.  The table keeps sending [10, 20 1) to region 2; when 9 splits later the table
   gets regions that overlap.  Every heartbeat fits. *)
Theorem C32_hidden_split_and_merge_refuted :
  exists t b1 b2, heard t /\ fits t b1 /\ fits (update_regions t b1) b2 /\
    (exists k, route_record (update_regions t b1) k = Some 2 /\ exists r, In r b1 /\ r_id r = 9 /\ owns r k) /\
    check_consecutive (update_regions (update_regions t b1) b2) = false /\
    ~ exists rs, good (update_regions (update_regions t b1) b2) rs.
Proof.
  set (b1 := [reg 2 [10] [10] 9; reg 9 [10] [20; 1] 2]). set (b2 := [reg 9 [10] [15] 3; reg 10 [15] [20; 1] 1]).
  exists three_table, b1, b2.
  assert (C : check_consecutive (update_regions (update_regions three_table b1) b2) = false) by (vm_compute; reflexivity).
  split.
  { destruct three_ok as [X F]. apply heard_first with (rs := three); auto. intros r. unfold three. cbn. tauto. }
  split.
  { assert (D : forall r, In r b1 -> r = reg 2 [10] [10] 9 \/ r = reg 9 [10] [20; 1] 2) by (unfold b1; cbn; intuition).
    split; [|split].
    - intros r I. destruct (D _ I) as [->| ->]; cbn; repeat split; try lia; intros L; [destruct L as [L|L]; [discriminate|exfalso; apply L; reflexivity]|right; reflexivity].
    - intros r r' I I'. destruct (D _ I) as [->| ->], (D _ I') as [->| ->]; cbn; intros E; auto; discriminate.
    - intros r o I. destruct (D _ I) as [->| ->]; cbn; intros E; [injection E as <-; cbn; discriminate|discriminate]. }
  split.
  { assert (D : forall r, In r b2 -> r = reg 9 [10] [15] 3 \/ r = reg 10 [15] [20; 1] 1) by (unfold b2; cbn; intuition).
    split; [|split].
    - intros r I. destruct (D _ I) as [->| ->]; cbn; repeat split; try lia; intros L; right; reflexivity.
    - intros r r' I I'. destruct (D _ I) as [->| ->], (D _ I') as [->| ->]; cbn; intros E; auto; discriminate.
    - intros r o I. destruct (D _ I) as [->| ->]; vm_compute; intros E; [injection E as <-; vm_compute; discriminate|discriminate]. }
  split.
  { exists [12]. split; [vm_compute; reflexivity|]. exists (reg 9 [10] [20; 1] 2). split; [cbn; auto|]. split; [reflexivity|].
    split; right; reflexivity. }
  split; [exact C|]. intros (rs & G). rewrite (check_consecutive_complete _ _ G) in C. discriminate.
Qed.
Print Assumptions C32_hidden_split_and_merge_refuted.

(* the hypotheses of the theorems are met: region 2 is merged with 3 and split again *)
Example learned_merge_and_split :
  let b := [reg 3 [10] [30] 5; reg 11 [30] [40] 1; reg 12 [40] [] 1] in
  good (update_regions three_table b) (reg 1 [] [10] 3 :: b) /\
  t_keys (update_regions three_table b) = [([], 1); ([10], 3); ([30], 11); ([40], 12)] /\
  fits three_table b /\ of_one_state three_table three b.
Proof.
  cbv zeta. set (b := [reg 3 [10] [30] 5; reg 11 [30] [40] 1; reg 12 [40] [] 1]).
  assert (D : forall r, In r b -> r = reg 3 [10] [30] 5 \/ r = reg 11 [30] [40] 1 \/ r = reg 12 [40] [] 1) by (unfold b; cbn; intuition).
  split; [|split; [vm_compute; reflexivity|split]].
  - replace (reg 1 [] [10] 3 :: b) with ([reg 1 [] [10] 3] ++ b ++ []) by (rewrite app_nil_r; reflexivity).
    unfold b at 2. apply (C32_split_and_merge_are_learned three_table [reg 1 [] [10] 3] [reg 2 [10] [20; 1] 7] (reg 3 [20; 1] [] 1) [] [10] []).
    + exact (proj1 three_good).
    + cbn; unfold before_end, below; cbn; repeat split; auto; discriminate.
    + cbn; unfold before_end, below; cbn; repeat split; auto; discriminate.
    + reflexivity.
    + cbn; lia.
    + right; discriminate.
    + repeat constructor; cbn; lia.
    + repeat constructor; cbn; intuition discriminate.
    + repeat constructor.
    + tauto.
  - split; [|split].
    + intros r I. destruct (D _ I) as [->|[->| ->]]; cbn; repeat split; try lia; intros _; unfold before_end; auto; right; reflexivity.
    + intros r r' I I'. destruct (D _ I) as [->|[->| ->]], (D _ I') as [->|[->| ->]]; cbn; intros E; auto; discriminate.
    + intros r o I. destruct (D _ I) as [->|[->| ->]]; cbn; intros E; try discriminate. injection E as <-. cbn. discriminate.
  - split.
    + intros r r' I I' _ _. destruct (D _ I) as [->|[->| ->]], (D _ I') as [->|[->| ->]]; cbn; intros X; try discriminate X;
        (split; [discriminate|]); first [left; reflexivity | right; reflexivity].
    + intros r o I _ Io E. destruct (D _ I) as [->|[->| ->]]; cbn in Io; destruct Io as [<-|[<-|[<-|[]]]]; cbn in E; try discriminate E.
      exists (reg 3 [20; 1] [] 1). split; [reflexivity|]. right. reflexivity.
Qed.
