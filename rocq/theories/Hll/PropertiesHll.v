(** C87: the estimate of a number of distinct values.

    HLL_INIT, HLL_ADD, HLL_MERGE, HLL_ADD_AGG, HLL_MERGE_AGG and HLL_ESTIMATE count
    values by their hashes in a sketch of 16384 numbers, kept in one of three
    encodings.  Whatever the order, the batches, the partial aggregates and the
    encodings on the way, a sketch must hold for each place the largest rank among
    the hashes counted (Spec.v: [best]), and so two ways to count the same values
    must show the same estimate.

    [est] is the computation with doubles of the estimate from the histogram; the
    theorems hold for every [est] that gives 0 for an empty sketch and 64 bits. *)
From Coq Require Import NArith ZArith List Bool Lia.
From Verif.Hll Require Import Spec Model Dense Sparse Ops Histo Trees.
Import ListNotations.
Open Scope N_scope.

(** Counting one value: never an error, one number becomes the maximum. *)
Theorem C87_add h hash :
  valid h ->
  exists ret h' r, hll_add h hash = Some (ret, h') /\ (ret = 0%Z \/ ret = 1%Z) /\ valid h' /\
    rank_is hash r /\
    forall i, i < 16384 ->
      reg h' i = if i =? place hash then N.max (reg h i) r else reg h i.
Proof.
  intros V. destruct (add_ok h hash V) as (ret & h' & c & E & R & K & [V' A] & _).
  exists ret, h', c. split; [exact E|]. split; [exact R|]. split; [exact V'|]. split; [exact K|].
  intros i I. rewrite (A i I). destruct (N.eqb_spec i (place hash)) as [->|]; reflexivity.
Qed.
Print Assumptions C87_add.

(** Changing the encoding keeps all numbers. *)
Theorem C87_convert h :
  valid h ->
  (exists h', sparse_to_dense h = Some (0%Z, h') /\ valid h' /\ enc h' = DENSE /\
     forall i, i < 16384 -> reg h' i = reg h i) /\
  (exists h', raw_to_sparse h = Some h' /\ valid h' /\ enc h' <> RAW /\
     forall i, i < 16384 -> reg h' i = reg h i).
Proof.
  intros V. split.
  - destruct (to_dense_ok h V) as (h' & E & V' & D & _ & R). exists h'. auto.
  - destruct (to_sparse_ok h V) as (h' & E & V' & N' & R & _). exists h'. auto.
Qed.
Print Assumptions C87_convert.

(** The estimate is made from the true histogram of the numbers, in each encoding. *)
Theorem C87_histogram h : valid h -> reghisto h = Some (histogram h).
Proof. exact (reghisto_ok h). Qed.
Print Assumptions C87_histogram.

(** Merging two sketches by HLL_MERGE. *)
Theorem C87_merge_partial h1 h2 :
  valid h1 -> valid h2 -> (enc h1 <> RAW \/ enc h2 = DENSE) ->
  exists h', hll_merge h1 h2 = Some (0%Z, h') /\ valid h' /\
    forall i, i < 16384 -> reg h' i = N.max (reg h1 i) (reg h2 i).
Proof.
  intros V1 V2 G. destruct (merge_ok h1 h2 V1 V2 G) as (h' & E & [V' A] & _). exists h'. auto.
Qed.
Print Assumptions C87_merge_partial.

(** Merging inside an aggregate; its state is always a raw sketch. *)
Theorem C87_merge_agg_partial h1 h2 :
  valid h1 -> valid h2 -> (enc h1 = RAW \/ enc h2 <> RAW) ->
  exists h', hll_merge_agg h1 h2 = Some (0%Z, h') /\ valid h' /\
    forall i, i < 16384 -> reg h' i = N.max (reg h1 i) (reg h2 i).
Proof.
  intros V1 V2 G. destruct (merge_agg_ok h1 h2 V1 V2 G) as (h' & E & [V' A] & _). exists h'. auto.
Qed.
Print Assumptions C87_merge_agg_partial.

(** Every expression without an aggregate as first argument of HLL_MERGE. *)
Theorem C87_contents_partial est e :
  est (16384 :: repeat 0 63) = 0 -> (forall l, est l < 2 ^ 64) -> good e ->
  exists h, eval est e = Some h /\ valid h /\
    forall i, i < 16384 -> best (hashes e) i (reg h i).
Proof.
  intros E0 E64 G. destruct (eval_ok est E0 E64 e G) as (h & E & V & _ & _ & A). exists h. auto.
Qed.
Print Assumptions C87_contents_partial.

(** Two such expressions that count the same set of values show the same estimate. *)
Theorem C87_estimate_partial est e1 e2 :
  est (16384 :: repeat 0 63) = 0 -> (forall l, est l < 2 ^ 64) -> good e1 -> good e2 ->
  (forall x, In x (hashes e1) <-> In x (hashes e2)) ->
  exists n h1 h2 h1' h2', eval est e1 = Some h1 /\ eval est e2 = Some h2 /\
    hll_estimate est h1 = Some (n, h1') /\ hll_estimate est h2 = Some (n, h2').
Proof. intros E0 E64. exact (estimate_same est E0 E64 e1 e2). Qed.
Print Assumptions C87_estimate_partial.

(** HLL_MERGE(HLL_ADD_AGG(a), HLL_ADD_AGG(b)) is HLL_ADD_AGG(a): nothing is merged
    into a raw sketch. *)
Theorem C87_merge_aggregates_refuted est :
  est (16384 :: repeat 0 63) = 0 -> (forall l, est l < 2 ^ 64) ->
  (forall e1 e2, good e1 -> good e2 -> aggregate e1 = true -> aggregate e2 = true ->
     exists h, eval est (Merge e1 e2) = Some h /\
       forall i, i < 16384 -> best (hashes e1) i (reg h i)) /\
  (exists e h i, eval est e = Some h /\ i < 16384 /\ ~ best (hashes e) i (reg h i)).
Proof.
  intros E0 E64. split; [exact (merge_dropped est E0 E64)|].
  destruct (merge_dropped est E0 E64 (Row Group [1]) (Row Group [2]) I I eq_refl eq_refl) as (h & E & A).
  exists (Merge (Row Group [1]) (Row Group [2])), h, 2. split; [exact E|]. split; [reflexivity|].
  destruct (A 2 eq_refl) as [[Z|(x & [<-|[]] & P & _)] _]; [|discriminate P].
  rewrite Z. intros [_ B]. specialize (B 2 51). cbn [hashes app In] in B.
  assert (51 <= 0); [|lia]. apply B; [tauto|reflexivity|].
  split; [lia|]. split; [|now left]. intros j J. apply (testbit_small 2 2); [reflexivity|lia].
Qed.
Print Assumptions C87_merge_aggregates_refuted.

(** A raw sketch given to hll_merge_agg for a sketch in another encoding is written
    past the end of the string.  No caller in the code does this. *)
Theorem C87_merge_agg_refuted h1 h2 :
  valid h1 -> valid h2 -> enc h1 <> RAW -> enc h2 = RAW -> hll_merge_agg h1 h2 = None.
Proof. exact (merge_agg_ub h1 h2). Qed.
Print Assumptions C87_merge_agg_refuted.

(** The hypotheses are met: a stored aggregate of two stores, merged with literals
    in the one order and added in the other. *)
Definition one_way : expr :=
  Shown (Merge (Stored (Join (Row Group [17; 5 * 2 ^ 14]) (Row Group [2 ^ 20 + 3]))) (Init [99; 17])).
Definition other_way : expr :=
  Add (Init [99; 2 ^ 20 + 3; 5 * 2 ^ 14]) [17].

Example C87_hypotheses_met :
  good one_way /\ good other_way /\ (forall x, In x (hashes one_way) <-> In x (hashes other_way)) /\
  valid sparse_init /\ valid row_init.
Proof.
  split; [cbn; tauto|]. split; [cbn; tauto|]. split; [|split; [apply init_ok|apply row_ok]].
  intros x. unfold one_way, other_way. cbn [hashes app In]. tauto.
Qed.

(** A sparse sketch computed: three values, in two places next to each other and one far away. *)
Example C87_example :
  option_map (fun h => (enc h, body h, reg h 3, reg h 4, reg h 5, reg h 1000))
    (eval (fun _ => 0) (Init [3 + 2 ^ 14; 4 + 2 ^ 14; 5 + 2 ^ 16; 1000 + 2 ^ 17]))
  = Some (SPARSE, [2; 129; 136; 67; 225; 140; 124; 22], 1, 1, 3, 4).
Proof. vm_compute. reflexivity. Qed.
