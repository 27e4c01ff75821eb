(* C26, C27, C41: ORDER BY, merging of sorted results, LIMIT. *)
From Coq Require Import ZArith List Bool Permutation Sorted Lia.
From Verif Require Import Common.Bytes Expr.Value Expr.Model Expr.Spec Expr.RowCompare Expr.Mixed.
From Verif Require Import Sort.Model Sort.Spec Sort.ProofsHeap Sort.ProofsTopN Sort.ProofsMerge.
Import ListNotations.
Local Open Scope Z_scope.

(* the ORDER BY comparison orders the rows of a result set *)
Lemma rows_ordered ts specs : orders (typed ts) (row_compare specs).
Proof. destruct (row_preorder ts specs) as (_&_&A&T). split; assumption. Qed.

(* ---------- C26 ---------- *)

(* The specification: [stable_sort] is a permutation of its input, in order, and keeps rows
   of equal rank in input order *)
Theorem C26_spec : forall {A} (P : A -> Prop) cmp (l : list A), orders P cmp -> Forall P l ->
  Permutation l (stable_sort cmp l) /\ in_order cmp (stable_sort cmp l) /\
  forall a, P a -> filter (fun y => cmp a y =? 0) (stable_sort cmp l) = filter (fun y => cmp a y =? 0) l.
Proof.
  intros A P cmp l O F. split; [apply stable_perm|]. split; [apply (stable_in_order cmp P O l F)|].
  intros a Pa. apply (stable_level cmp P O a l Pa F).
Qed.
Print Assumptions C26_spec.

(* Whatever the rows, whatever the order, the n kept rows are the first n of the stable sort:
   the sorter's output exists and is this one *)
Theorem C26_topn : forall {A} (P : A -> Prop) cmp n (rows out : list A),
  orders P cmp -> (1 <= n)%nat -> Forall P rows ->
  topn_output cmp false (Z.of_nat n) rows out <-> out = firstn n (stable_sort cmp rows).
Proof.
  intros A P cmp n rows out O Hn F. split; [apply (topn_ok cmp P O n rows out Hn F)|].
  intros ->. destruct (topn_runs cmp P O n rows Hn F) as (out&H).
  rewrite <- (topn_ok cmp P O n rows out Hn F H). exact H.
Qed.
Print Assumptions C26_topn.
(* for result rows and an ORDER BY clause *)
Theorem C26_order_by : forall ts specs n rows out, (1 <= n)%nat -> Forall (typed ts) rows ->
  topn_output (row_compare specs) false (Z.of_nat n) rows out <-> out = firstn n (stable_sort (row_compare specs) rows).
Proof. intros. apply (C26_topn (typed ts)); auto. apply rows_ordered. Qed.
Print Assumptions C26_order_by.
(* without ORDER BY, the first n rows *)
Theorem C26_no_order : forall {A} cmp n (rows out : list A),
  topn_output cmp true (Z.of_nat n) rows out <-> out = firstn n rows.
Proof. intros. apply topn_plain. Qed.
Print Assumptions C26_no_order.
(* a limit of 0 must not reach the sorter: it would read the root of an empty heap *)
Theorem C26_zero_refuted : forall {A} cmp (r : A) rows out, ~ topn_output cmp false 0 (r :: rows) out.
Proof. intros A cmp r rows out (s&v&E&_). cbn in E. discriminate. Qed.
Print Assumptions C26_zero_refuted.
Example C26_nonvacuous :
  let cmp := fun x y : Z => x mod 10 - y mod 10 in
  orders (fun _ => True) cmp /\
  topn_output cmp false 3 [35; 12; 45; 22; 5; 32; 1] [1; 12; 22].
Proof.
  cbv zeta. split.
  - split; intros; lia.
  - eexists. eexists. split; [vm_compute; reflexivity|]. split; [|instantiate (1 := [(1,7);(12,2);(22,4)]); reflexivity].
    split.
    + vm_compute. apply (Permutation_cons_app [(1,7);(12,2)] []). cbn. apply perm_swap || reflexivity.
    + intros i j x y Hij Hx Hy.
      destruct i as [|[|[|i]]]; destruct j as [|[|[|j]]]; cbn in Hx, Hy; try lia; try discriminate;
        try (destruct j; discriminate); try (destruct i; discriminate); injection Hx as <-; injection Hy as <-; reflexivity.
Qed.

(* ---------- C27 ---------- *)

(* Merging batches that are each in order: whatever room the reader offers in each call, the
   rows returned so far are in order, none is lost or repeated, and none left is below one
   returned; at eos nothing is left; eos comes once the room offered exceeds the rows. *)
Theorem C27_merge : forall {A} (P : A -> Prop) cmp (bs : list (batch (A := A))) caps,
  orders P cmp -> Forall (fun b => Forall P (batch_rows b) /\ in_order cmp (batch_rows b)) bs ->
  let '(out, eos, unread) := get_all cmp false caps (merge_sort cmp false bs) in
  Permutation (concat (map batch_rows bs)) (out ++ concat (map batch_rows unread)) /\
  in_order cmp out /\
  (forall x y, In x out -> In y (concat (map batch_rows unread)) -> cmp x y <= 0) /\
  (eos = true -> unread = []) /\ (eos = false -> length out = list_sum caps) /\
  ((length (concat (map batch_rows bs)) < list_sum caps)%nat -> eos = true).
Proof.
  intros A P cmp bs caps O F. destruct (merge_good cmp P O bs F) as [G PR].
  pose proof (get_all_ok cmp P O caps _ G) as H. pose proof (get_all_ends cmp P O caps _ G) as E.
  destruct (get_all cmp false caps (merge_sort cmp false bs)) as [[out eos] unread].
  destruct H as (_&(C1&C2&C3)&_&E1&E2). cbn [fst snd] in E.
  split; [etransitivity; [exact PR|exact C1]|]. split; [exact C2|]. split; [exact C3|]. split; [exact E1|]. split; [exact E2|].
  intros L. apply E. pose proof (Permutation_length PR) as PL. unfold rows_of in *. lia.
Qed.
Print Assumptions C27_merge.

(* the full sort: batches in any order, sorted by std::sort, then merged *)
Theorem C27_sort : forall {A} (P : A -> Prop) cmp (bs h : list (batch (A := A))) caps,
  orders P cmp -> Forall (fun b => Forall P (batch_rows b)) bs -> sorter_sort cmp false bs h ->
  let '(out, eos, unread) := get_all cmp false caps h in
  Permutation (concat (map batch_rows bs)) (out ++ concat (map batch_rows unread)) /\
  in_order cmp out /\ (eos = true -> unread = []) /\
  ((length (concat (map batch_rows bs)) < list_sum caps)%nat -> eos = true).
Proof.
  intros A P cmp bs h caps O F S1. destruct (sort_good cmp P O bs h F S1) as [G PR].
  pose proof (get_all_ok cmp P O caps _ G) as H. pose proof (get_all_ends cmp P O caps _ G) as E.
  destruct (get_all cmp false caps h) as [[out eos] unread].
  destruct H as (_&(C1&C2&C3)&_&E1&E2). cbn [fst snd] in E.
  split; [etransitivity; [exact PR|exact C1]|]. split; [exact C2|]. split; [exact E1|].
  intros L. apply E. pose proof (Permutation_length PR) as PL. unfold rows_of in *. lia.
Qed.
Print Assumptions C27_sort.

(* without ORDER BY the batches come out as they were added *)
Theorem C27_no_order : forall {A} cmp (bs : list (batch (A := A))) caps, (length bs <= length caps)%nat -> bs <> [] ->
  get_all cmp true caps (merge_sort cmp true bs) = (concat (map batch_rows bs), true, []).
Proof. intros. apply get_plain; assumption. Qed.
Print Assumptions C27_no_order.

(* ORDER BY with LIMIT over several regions: each region returns its first n rows, the
   merged first n rows are first n rows of the whole table *)
Theorem C27_pushed_limit : forall {A} (P : A -> Prop) cmp n (tables outs : list (list A)) out,
  orders P cmp -> Forall (Forall P) tables ->
  Forall2 (first_rows cmp n) tables outs -> first_rows cmp n (concat outs) out ->
  first_rows cmp n (concat tables) out.
Proof. intros A P cmp n tables outs out O. apply (first_of_firsts cmp P O). Qed.
Print Assumptions C27_pushed_limit.
(* a region's top-n output is such first rows *)
Theorem C27_region : forall {A} (P : A -> Prop) cmp n (rows out : list A),
  orders P cmp -> (1 <= n)%nat -> Forall P rows -> topn_output cmp false (Z.of_nat n) rows out ->
  first_rows cmp n rows out.
Proof.
  intros A P cmp n rows out O Hn F H. apply (topn_ok cmp P O n rows out Hn F) in H as ->.
  pose proof (stable_in_order cmp P O rows F) as S1. pose proof (stable_perm cmp rows) as Pm.
  exists (skipn n (stable_sort cmp rows)). rewrite firstn_skipn. split; [exact Pm|].
  split; [|split; [|rewrite firstn_length, <- (Permutation_length Pm); reflexivity]].
  - clear Pm Hn. unfold in_order in *. revert n. induction S1 as [|x l S1 IH Fx]; intros n; [rewrite firstn_nil; constructor|].
    destruct n as [|n]; [constructor|]. cbn [firstn]. constructor.
    + apply IH.
    + rewrite Forall_forall in *. intros y Hy. apply Fx. rewrite <- (firstn_skipn n l). apply in_or_app. auto.
  - clear Pm Hn. unfold in_order in S1. revert n. induction S1 as [|a l S1 IH Fx]; intros n x y Hx Hy; [rewrite firstn_nil in Hx; destruct Hx|].
    destruct n as [|n]; [destruct Hx|]. cbn [firstn skipn] in *. destruct Hx as [<-|Hx]; [|eapply IH; eauto].
    rewrite Forall_forall in Fx. apply Fx. rewrite <- (firstn_skipn n l). apply in_or_app. auto.
Qed.
Print Assumptions C27_region.
Example C27_nonvacuous :
  let cmp := Z.sub in
  orders (fun _ => True) cmp /\ in_order cmp [1; 4; 6] /\
  get_all cmp false [4; 4; 4]%nat (merge_sort cmp false [(3, [3; 9]); (1, [4; 6]); (2, []); (0, [5])]) =
    ([0; 1; 2; 3; 3; 4; 5; 6; 9], true, []).
Proof.
  cbv zeta. split; [split; intros; lia|]. split; [repeat constructor; lia|]. vm_compute. reflexivity.
Qed.

(* ---------- C41 ---------- *)

(* LIMIT offset, count: the rows of the page, in the order the child returned them, however
   the child cuts its rows into batches; no count (-1) means all rows *)
Theorem C41_limit : forall {A} (batches : list (list A)) offset limit, -1 <= limit ->
  limit_all (S (length batches)) limit offset {| skipped := 0; returned := 0; child := batches |} =
  (page offset (if limit =? -1 then None else Some limit) (concat batches), true).
Proof.
  intros A batches offset limit HL. rewrite limit_ok; [|exact HL|cbn [child]; lia].
  unfold due, page. cbn [skipped returned child]. rewrite !Z.sub_0_r. destruct (limit =? -1); reflexivity.
Qed.
Print Assumptions C41_limit.
Example C41_nonvacuous :
  limit_all 5 3 4 {| skipped := 0; returned := 0; child := [[1; 2]; [3; 4; 5]; []; [6; 7; 8; 9]] |} = ([5; 6; 7], true).
Proof. vm_compute. reflexivity. Qed.
