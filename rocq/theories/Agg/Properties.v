(* C61-C64: GROUP BY and aggregate functions over the regions of a table *)
From Coq Require Import List ZArith Bool Lia Sorting.Permutation Sorting.Sorted.
From Verif Require Import Common.Bytes Common.KV Key.Model Key.Spec Agg.Model Agg.Spec Agg.Sets Agg.Group Agg.Final Agg.Top Agg.Two.
Import ListNotations.
Local Open Scope Z_scope.

(* C61: whatever the division of the rows into regions and whatever the order in which the
   partial results arrive, the answer has one row per group with the aggregates over all rows
   of the group. *)
Theorem C61_aggregates_over_regions gs cs regions :
  NoDup (map c_slot cs) ->
  Forall (groupable gs) (concat regions) ->
  (forall c, In c cs -> c_distinct c = false /\ match c_fn c with FConcatBy _ _ _ => False | _ => True end) ->
  (forall c r, In c cs -> In r (concat regions) -> fits (c_fn c) (group_of gs r (concat regions))) ->
  (forall c region r, In c cs -> In region regions -> In r region -> part_ok (c_fn c) (group_of gs r region)) ->
  (gs = [] -> concat regions = [] -> forall c, In c cs -> match c_fn c with FMulti true _ _ => False | _ => True end) ->
  exists sent, stores gs cs regions = Some sent /\ forall arrived, Permutation sent arrived ->
    exists out, merge_agg gs cs arrived = Some out /\
      answer gs (concat regions) (fun rows m => forall c, In c cs -> agg_spec (c_fn c) rows (result c m)) out.
Proof.
  intros Hs Hg Hd Hf Hp Hm. destruct (split_ok gs cs Hs regions Hg Hd Hf Hp Hm) as (sent & E & Ha).
  exists sent. split; [exact E|]. intros arrived P. destruct (Ha arrived P) as (out & Eo & An & _). eauto.
Qed.
Print Assumptions C61_aggregates_over_regions.

(* COUNT, SUM, AVG, MIN, MAX, GROUP_CONCAT, RB_OR_AGG, RB_XOR_AGG and RB_BUILD_AGG ask nothing
   of the parts *)
Theorem C61_plain_aggregates_over_regions gs cs regions :
  NoDup (map c_slot cs) ->
  Forall (groupable gs) (concat regions) ->
  (forall c, In c cs -> c_distinct c = false /\
     match c_fn c with
     | FCountStar | FCount _ | FSum _ _ | FMin _ _ | FMax _ _ | FConcat _ _ | FBuild _ => True
     | FAvg e => zsum (map Z.abs (nonnull e (concat regions))) <= 2 ^ 53
     | FBits BOr e | FBits BXor e => Forall increasing (nonnull e (concat regions))
     | _ => False
     end) ->
  exists sent, stores gs cs regions = Some sent /\ forall arrived, Permutation sent arrived ->
    exists out, merge_agg gs cs arrived = Some out /\
      answer gs (concat regions) (fun rows m => forall c, In c cs -> agg_spec (c_fn c) rows (result c m)) out.
Proof.
  intros Hs Hg Hd. apply C61_aggregates_over_regions; auto.
  - intros c Hc. destruct (Hd c Hc) as [A B]. split; [exact A|]. destruct (c_fn c); auto.
  - intros c r Hc _. destruct (Hd c Hc) as [_ B]. unfold group_of.
    assert (X : fits (c_fn c) (concat regions)) by (destruct (c_fn c) as [| | | | | |[]| | | |]; auto; contradiction).
    eapply Calls.fits_perm in X; [|apply (filter_split (same_group gs r))]. now apply Calls.fits_app in X.
  - intros c rg r Hc _ _. destruct (Hd c Hc) as [_ B]. destruct (c_fn c) as [| | | | | |[]| | | |]; try exact I; contradiction.
  - intros _ _ c Hc. destruct (Hd c Hc) as [_ B]. destruct (c_fn c); auto. destruct B.
Qed.
Print Assumptions C61_plain_aggregates_over_regions.

(* C62: rows meet in the same entry of the hash table exactly when they are of the same group *)
Theorem C62_group_key_identity gs r r' : groupable gs r -> groupable gs r' ->
  exists k k', group_key gs r = Some k /\ group_key gs r' = Some k' /\ (k = k' <-> same_group gs r r' = true).
Proof. exact (group_key_iff gs r r'). Qed.
Print Assumptions C62_group_key_identity.

(* C63: DISTINCT aggregates are taken over one row per combination of their arguments, GROUP_CONCAT
   with ORDER BY over the rows in that order, the other calls of the query over all rows *)
Theorem C63_distinct_and_ordered_aggregates gs extra cs regions :
  (forall c, In c cs -> c_distinct c = true -> extra <> []) -> NoDup (map c_slot cs) -> Forall (groupable (gs ++ extra)) (concat regions) ->
  (forall c, In c cs -> match c_fn c with
      | FMulti _ _ _ => c_distinct c = false
      | FConcatBy _ _ keys => c_distinct c = true \/ forall t e asc, In (t, e, asc) keys -> In (t, e) extra
      | _ => True end) ->
  (forall c r, In c cs -> In r (concat regions) -> fits (c_fn c) (group_of gs r (concat regions))) ->
  (forall c region r, In c cs -> c_distinct c = false -> In region regions -> In r region -> part_ok (c_fn c) (group_of (gs ++ extra) r region)) ->
  (gs = [] -> concat regions = [] -> forall c, In c cs -> match c_fn c with FMulti true _ _ => False | _ => True end) ->
  exists sent, stores (gs ++ extra) (inner_calls cs) regions = Some sent /\ forall arrived, Permutation sent arrived ->
    exists out, two_level gs extra cs arrived = Some out /\
      answer gs (concat regions) (fun rows m => forall c, In c cs ->
        if c_distinct c then exists reps, one_per extra rows reps /\ agg_spec (c_fn c) reps (result c m)
        else agg_spec (c_fn c) rows (result c m)) out.
Proof. exact (two_ok gs extra cs regions). Qed.
Print Assumptions C63_distinct_and_ordered_aggregates.

(* SELECT COUNT(DISTINCT e) ... GROUP BY gs: the number of different values *)
Theorem C63_count_distinct gs t e regions :
  Forall (groupable (gs ++ [(t, e)])) (concat regions) ->
  let cs := [Call 0 (FCount [e]) true] in
  exists sent, stores (gs ++ [(t, e)]) (inner_calls cs) regions = Some sent /\ forall arrived, Permutation sent arrived ->
    exists out, two_level gs [(t, e)] cs arrived = Some out /\
      answer gs (concat regions) (fun rows m => exists vs,
        incl vs (nonnull e rows) /\
        (forall v, In v (nonnull e rows) -> exists w, In w vs /\ value_compare t v w = Eq) /\
        ForallOrdPairs (fun v w => value_compare t v w <> Eq) vs /\
        m_int m 0%nat = Some (AV (VNum (to_signed 64 (Z.of_nat (length vs)))))) out.
Proof.
  intros Hg cs. destruct (two_ok gs [(t, e)] cs regions) as (sent & E & Ha); auto.
  - discriminate.
  - repeat constructor; auto.
  - intros c [<-|[]]. exact I.
  - intros c r [<-|[]] _. exact I.
  - intros c rg r [<-|[]] X. discriminate.
  - intros _ _ c [<-|[]]. exact I.
  - exists sent. split; [exact E|]. intros arrived P. destruct (Ha arrived P) as (out & Eo & An). exists out. split; [exact Eo|].
    set (ok := fun (rows : list row) (m : mrow) => exists vs, incl vs (nonnull e rows) /\ _) in *.
    assert (W : forall rows m, (forall c, In c cs -> if c_distinct c then exists reps, one_per [(t, e)] rows reps /\ agg_spec (c_fn c) reps (result c m)
        else agg_spec (c_fn c) rows (result c m)) -> ok rows m).
    { intros rows m X. destruct (X _ (or_introl eq_refl)) as (reps & (I1 & C1 & D1) & S1). cbn [c_fn agg_spec result c_slot] in S1.
      exists (nonnull e reps). split; [now apply nonnull_incl|]. split; [|split].
      - intros v Hv. unfold nonnull in Hv. apply in_flat_map in Hv. destruct Hv as (r & Hr & Hv). destruct (C1 r Hr) as (r' & Hr' & Sg).
        unfold same_group in Sg. cbn [forallb fst snd] in Sg. rewrite andb_true_r in Sg. destruct (e r) as [v0|] eqn:Er; [|destruct Hv]. destruct Hv as [->|[]].
        unfold same_column in Sg. destruct (e r') as [w|] eqn:Er'; [|discriminate]. exists w. split.
        + unfold nonnull. apply in_flat_map. exists r'. split; [exact Hr'|]. rewrite Er'. left; reflexivity.
        + destruct (value_compare t v w); congruence.
      - clear - D1. induction reps as [|r reps IH]; [constructor|]. inversion D1 as [|? ? F D]; subst. unfold nonnull in *. cbn [flat_map].
        destruct (e r) as [v|] eqn:Er; [|apply IH, D]. cbn [app]. constructor; [|apply IH, D]. rewrite Forall_forall in *. intros w Hw.
        apply in_flat_map in Hw. destruct Hw as (r' & Hr' & Hw). specialize (F r' Hr'). unfold same_group in F. cbn [forallb fst snd] in F. rewrite andb_true_r, Er in F.
        destruct (e r') as [w'|]; [|destruct Hw]. destruct Hw as [->|[]]. unfold same_column in F. destruct (value_compare t v w); congruence.
      - rewrite S1. do 5 f_equal. clear. unfold nonnull. induction reps as [|r reps IH]; [reflexivity|]. cbn [forallb] in IH. cbn [filter forallb flat_map].
        destruct (e r); cbn [andb app length]; [now rewrite IH|exact IH]. }
    clear - An W. unfold answer in *. destruct gs; [destruct An as (m & E & X); exists m; split; [exact E|exact (W _ _ X)]|].
    destruct An as (A & B & C). split; [exact A|]. split; [exact B|]. intros m Hm. destruct (C m Hm) as [C1 C2]. split; [exact C1|exact (W _ _ C2)].
Qed.
Print Assumptions C63_count_distinct.

(* C64: the set a region sends for a MULTI_COUNT_DISTINCT or MULTI_SUM_DISTINCT is the set the
   frontend reads *)
Theorem C64_distinct_set_round_trip t vs :
  Forall (fun v => match v with VNum z => int_val_ok t z | VStr _ => t = STRING end) vs -> vs <> [] ->
  zsum (map item_size vs) < 2 ^ 31 - 1 ->
  unserialize (serialize t vs) = Some vs.
Proof. exact (unserialize_serialize t vs). Qed.
Print Assumptions C64_distinct_set_round_trip.

(* ---- cases that meet the hypotheses ---- *)

(* columns: 0 VARCHAR group, 1 and 2 BIGINT; three regions, NULLs *)
Definition ex_row (g : list Z) (a b : option value) : row :=
  fun i => match i with O => Some (VStr g) | 1%nat => a | 2%nat => b | _ => None end.
Definition num (i : nat) (r : row) : option Z := match r i with Some (VNum z) => Some z | _ => None end.
Definition txt (i : nat) (r : row) : option (list Z) := match r i with Some (VNum z) => Some [z + 48] | Some (VStr s) => Some s | None => None end.
Definition ex_regions : list (list row) :=
  [[ex_row [97] (Some (VNum 5)) (Some (VNum 1)); ex_row [98] (Some (VNum 2)) (Some (VNum 2))]; [];
   [ex_row [97] None (Some (VNum 3)); ex_row [98] (Some (VNum 2)) (Some (VNum 4)); ex_row [97] (Some (VNum 9)) (Some (VNum 5))]].
Definition ex_gs : groups := [(STRING, fun r => r 0%nat)].
Definition ex_cs : list call :=
  [Call 0 FCountStar false; Call 1 (FCount [fun r => r 1%nat]) false; Call 2 (FSum false (num 1)) false; Call 3 (FAvg (num 1)) false;
   Call 4 (FMax INT64 (fun r => r 1%nat)) false; Call 5 (FMulti false INT64 (fun r => r 2%nat)) false; Call 6 (FConcat [44] [txt 1]) false].
Example C61_case :
  NoDup (map c_slot ex_cs) /\ Forall (groupable ex_gs) (concat ex_regions) /\
  (forall c r, In c ex_cs -> In r (concat ex_regions) -> fits (c_fn c) (group_of ex_gs r (concat ex_regions))) /\
  (forall c region r, In c ex_cs -> In region ex_regions -> In r region -> part_ok (c_fn c) (group_of ex_gs r region)) /\
  match stores ex_gs ex_cs ex_regions with
  | Some sent =>
      match merge_agg ex_gs ex_cs (rev sent) with
      | Some out => map (fun m => (m_src m 0%nat, map (fun c => result c m) ex_cs)) out
      | None => []
      end
  | None => []
  end =
    [(Some (VStr [98]), [Some (AV (VNum 2)); Some (AV (VNum 2)); Some (AV (VNum 4)); Some (AAvg 4 2); Some (AV (VNum 2)); Some (AV (VNum 2)); Some (AV (VStr [50; 44; 50]))]);
     (Some (VStr [97]), [Some (AV (VNum 3)); Some (AV (VNum 2)); Some (AV (VNum 14)); Some (AAvg 14 2); Some (AV (VNum 9)); Some (AV (VNum 3)); Some (AV (VStr [57; 44; 53]))])].
Proof.
  split; [repeat constructor; cbn; intuition discriminate|]. split; [|split; [|split]].
  - unfold ex_regions. cbn [concat app]. repeat (constructor; [split; [intros t e v [E|[]] Ev; injection E as <- <-; cbn in Ev; injection Ev as <-; cbn; repeat constructor; lia|intros t e []]|]). constructor.
  - intros c r Hc Hr. unfold ex_regions in Hr. cbn [concat app In] in Hr.
    repeat (destruct Hc as [<-|Hc]); try destruct Hc; cbn [c_fn fits]; try exact I.
    1: repeat (destruct Hr as [<-|Hr]); try destruct Hr; vm_compute; discriminate.
    assert (Q : incl (nonnull (fun r : row => r 2%nat) (group_of ex_gs r (concat ex_regions))) [VNum 1; VNum 2; VNum 3; VNum 4; VNum 5]).
    { change [VNum 1; VNum 2; VNum 3; VNum 4; VNum 5] with (nonnull (fun r : row => r 2%nat) (concat ex_regions)). apply nonnull_incl. intros x Hx. now apply filter_In in Hx. }
    split.
    + intros v Hv. apply Q in Hv. repeat (destruct Hv as [<-|Hv]); try destruct Hv; unfold int_val_ok; cbn; lia.
    + intros s N I0. assert (I1 : incl s [VNum 1; VNum 2; VNum 3; VNum 4; VNum 5]) by (intros x Hx; apply Q, I0, Hx).
      pose proof (NoDup_incl_length N I1) as L. cbn [length] in L.
      assert (F : Forall (fun v => item_size v = 8) s).
      { rewrite Forall_forall. intros v Hv. specialize (I1 v Hv). repeat (destruct I1 as [<-|I1]; [reflexivity|]). destruct I1. }
      assert (E : zsum (map item_size s) = 8 * Z.of_nat (length s)).
      { clear - F. induction F as [|x l Hx F IH]; [reflexivity|]. cbn [map length]. unfold zsum in *. cbn [fold_right]. lia. }
      rewrite E. lia.
  - intros c rg r Hc Hrg Hr. repeat (destruct Hc as [<-|Hc]); try destruct Hc; cbn [c_fn part_ok]; try exact I.
    unfold ex_regions in Hrg. repeat (destruct Hrg as [<-|Hrg]); try destruct Hrg; repeat (destruct Hr as [<-|Hr]); try destruct Hr; vm_compute; discriminate.
  - vm_compute. reflexivity.
Qed.

(* COUNT( * ), COUNT(DISTINCT b), GROUP_CONCAT(b ORDER BY b DESC) over all rows *)
Definition ex_extra : groups := [(INT64, fun r => r 1%nat)].
Definition ex_cs2 : list call :=
  [Call 0 FCountStar false; Call 1 (FCount [fun r => r 1%nat]) true; Call 2 (FConcatBy [44] [txt 1] [(INT64, (fun r => r 1%nat), false)]) false].
Example C63_case :
  Forall (groupable ([] ++ ex_extra)) (concat ex_regions) /\
  (forall c r, In c ex_cs2 -> In r (concat ex_regions) -> fits (c_fn c) (group_of [] r (concat ex_regions))) /\
  match stores ([] ++ ex_extra) (inner_calls ex_cs2) ex_regions with
  | Some sent =>
      match two_level [] ex_extra ex_cs2 sent with
      | Some out => map (fun m => map (fun c => result c m) ex_cs2) out
      | None => []
      end
  | None => []
  end = [[Some (AV (VNum 5)); Some (AV (VNum 3)); Some (AV (VStr [57; 44; 53; 44; 50; 44; 50]))]].
Proof.
  split; [|split].
  - unfold ex_regions. cbn [concat app]. repeat (constructor; [split; [intros t e v [E|[]] Ev; injection E as <- <-; cbn in Ev; try discriminate; injection Ev as <-; unfold value_ok, int_val_ok; cbn; lia|intros t e []]|]). constructor.
  - intros c r Hc Hr. repeat (destruct Hc as [<-|Hc]); try destruct Hc; cbn [c_fn fits]; try exact I.
    rewrite Forall_forall. intros x Hx. vm_compute in Hx. repeat (destruct Hx as [<-|Hx]); try destruct Hx; discriminate.
  - vm_compute. reflexivity.
Qed.

(* a NULL and an empty string are different groups *)
Example C62_case : groupable [(STRING, fun r : row => r 0%nat); (INT32, fun r => r 1%nat)] (fun i => match i with 1%nat => Some (VNum (-3)) | _ => None end) /\
  group_key [(STRING, fun r : row => r 0%nat); (INT32, fun r => r 1%nat)] (fun i => match i with 1%nat => Some (VNum (-3)) | _ => None end) = Some [128; 127; 255; 255; 253].
Proof.
  split; [|vm_compute; reflexivity]. split; [|intros t e []]. intros t e v [E|[E|[]]] Ev; injection E as <- <-; cbn in Ev; try discriminate.
  injection Ev as <-. cbn. unfold int_val_ok. cbn. lia.
Qed.

Example C64_case : unserialize (serialize STRING [VStr [97]; VStr []; VStr [0; 255]]) = Some [VStr [97]; VStr []; VStr [0; 255]] /\
  unserialize (serialize INT16 [VNum (-2); VNum 300]) = Some [VNum (-2); VNum 300].
Proof. split; vm_compute; reflexivity. Qed.
