(* Window functions: the values, the batches, the functions that share a window. *)
From Coq Require Import List ZArith Bool Lia Sorting.Sorted.
From Verif Require Import Common.Bytes Key.Model Key.Spec Agg.Model Agg.Spec Agg.Lists Agg.Group Agg.Top.
From Verif Require Import Window.Model Window.Spec Window.Fn Window.Order Window.Rank Window.Run Window.Node Window.Loop Window.Top.
Import ListNotations.
Local Open Scope Z_scope.

(* C68: one function over one partition.  A function the planner accepts, with the frame it
   plans for it, gives each row of a partition the value SQL defines: of the rows of its frame, or
   of its place in the partition. *)
Theorem C68_window_values s f p m : check_valid f s = true -> mode_of (plan_frame f s) = Some m ->
  in_order (s_order s) p -> p <> [] -> Z.of_nat (length p) < 2 ^ 31 -> small_fn f p -> small_frame s p ->
  exists i vs, run_fn (s_order s) m f (initialize f) p = Some (i, vs) /\ values_ok s f p vs.
Proof.
  intros V M O N L Sf Sm. destruct (run_ok s f m p (initialize f)) as (i & vs & R & _ & K); eauto using shaped_init.
  assert (coherent s [f]) as C. { cbn. destruct (rank_like f) eqn:R; [right; left; intros g [<-|[]]; exact R|now left]. }
  apply (merged_frame s f [] m C); [cbn; now rewrite V|exact M|now left].
Qed.
Print Assumptions C68_window_values.

(* what an earlier partition left in the function does not matter *)
Theorem C68_any_state s f p m i : check_valid f s = true -> mode_of (plan_frame f s) = Some m ->
  in_order (s_order s) p -> p <> [] -> Z.of_nat (length p) < 2 ^ 31 -> small_fn f p -> small_frame s p -> shaped f i ->
  exists i' vs, run_fn (s_order s) m f i p = Some (i', vs) /\ shaped f i' /\ values_ok s f p vs.
Proof.
  intros V M O N L Sf Sm Sh. apply run_ok; try assumption.
  assert (coherent s [f]) as C. { cbn. destruct (rank_like f) eqn:R; [right; left; intros g [<-|[]]; exact R|now left]. }
  apply (merged_frame s f [] m C); [cbn; now rewrite V|exact M|now left].
Qed.
Print Assumptions C68_any_state.

(* C69: a query with one window.  Whatever the batches the child delivers, the capacities of the
   batches of the parent and the LIMIT, the node answers each row once, in the order of the sort
   and partition by partition, with the value of every function; with LIMIT n the first n of
   them.  Enough calls reach the end. *)
Theorem C69_window_node s fs w l child caps :
  merge_window_node s fs = Some [w] -> coherent s fs -> feed child ->
  StronglySorted (fun a b => order_compare (sort_keys s) a b <> Gt) (fed child) -> small_table s fs (fed child) ->
  exists out, windows_ok s fs (fed child) out /\
  exists got fin, drain (with_limit l w) caps (wopen (with_limit l w) child) [] = Some (got, fin) /\
    let asked := match l with None => out | Some n => firstn (Z.to_nat n) out end in
    (if fin then got = asked else exists more, asked = got ++ more) /\
    (Forall (fun c => (0 < c)%nat) caps -> (length asked < length caps)%nat -> fin = true).
Proof. intros M C F So Sm. eexists. exact (node_ok s fs w l child caps M C F So Sm). Qed.
Print Assumptions C69_window_node.

(* the batches do not show *)
Theorem C69_batches s fs w l child child' caps caps' got got' :
  merge_window_node s fs = Some [w] -> coherent s fs -> feed child -> feed child' -> fed child = fed child' ->
  StronglySorted (fun a b => order_compare (sort_keys s) a b <> Gt) (fed child) -> small_table s fs (fed child) ->
  drain (with_limit l w) caps (wopen (with_limit l w) child) [] = Some (got, true) ->
  drain (with_limit l w) caps' (wopen (with_limit l w) child') [] = Some (got', true) -> got = got'.
Proof.
  intros M C F F' E So Sm D D'.
  destruct (node_ok s fs w l child caps M C F So Sm) as (_ & d & fin & K & K1 & _). rewrite D in K. injection K as <- <-.
  rewrite E in So, Sm. destruct (node_ok s fs w l child' caps' M C F' So Sm) as (_ & d' & fin' & K' & K2 & _). rewrite D' in K'. injection K' as <- <-.
  rewrite K1, K2, E. reflexivity.
Qed.
Print Assumptions C69_batches.

(* C70: functions that share the text of their OVER clause run in one node with one frame.  Each
   gets its own frame if the first one has a frame, if none has, or if there is no ORDER BY. *)
Theorem C70_shared_window s f fs m : coherent s (f :: fs) -> forallb (fun f => check_valid f s) (f :: fs) = true ->
  mode_of (plan_frame f s) = Some m ->
  forall p g i, In g (f :: fs) -> in_order (s_order s) p -> p <> [] -> Z.of_nat (length p) < 2 ^ 31 -> small_fn g p -> small_frame s p ->
  shaped g i -> exists i' vs, run_fn (s_order s) m g i p = Some (i', vs) /\ values_ok s g p vs.
Proof.
  intros C V M p g i Hg O N L Sf Sm Sh. destruct (merged_frame s f fs m C V M g Hg) as (Vg & Ow).
  destruct (run_ok s g m p i Vg Ow O N L Sf Sm Sh) as (i' & vs & R & _ & K). eauto.
Qed.
Print Assumptions C70_shared_window.

(* a table (x, y) *)
Definition xy (x y : Z) : row := fun i => match i with 0%nat => Some (VNum x) | 1%nat => Some (VNum y) | _ => None end.
Definition num (i : nat) (r : row) : option Z := match r i with Some (VNum z) => Some z | _ => None end.
Definition by_y : okeys := [(INT64, fun r : row => r 1%nat, true)].

(* ... and not otherwise: SELECT ROW_NUMBER() OVER (ORDER BY y), SUM(x) OVER (ORDER BY y) gives
   the sum of all rows in every row; with the columns swapped the running sums *)
Theorem C70_merged_windows_refuted :
  let s := WSpec [] by_y None in
  let p := [xy 1 1; xy 2 2; xy 4 3] in
  let ask fs :=
    match merge_window_node s fs with
    | Some [w] => match drain w [10%nat; 10%nat] (wopen w [(p, true)]) [] with Some (out, true) => map snd out | _ => [] end
    | _ => []
    end in
  ask [WRowNumber; WSum (num 0)] =
    [[Some (WV (VNum 1)); Some (WV (VNum 7))]; [Some (WV (VNum 2)); Some (WV (VNum 7))]; [Some (WV (VNum 3)); Some (WV (VNum 7))]] /\
  ask [WSum (num 0); WRowNumber] =
    [[Some (WV (VNum 1)); Some (WV (VNum 1))]; [Some (WV (VNum 3)); Some (WV (VNum 2))]; [Some (WV (VNum 7)); Some (WV (VNum 3))]] /\
  ~ fn_spec by_y p 0 (xy 1 1) (frame_rows (sql_frame s) by_y p 0 (xy 1 1)) (WSum (num 0)) (Some (WV (VNum 7))) /\
  fn_spec by_y p 0 (xy 1 1) (frame_rows (sql_frame s) by_y p 0 (xy 1 1)) (WSum (num 0)) (Some (WV (VNum 1))).
Proof.
  cbv zeta. split; [vm_compute; reflexivity|]. split; [vm_compute; reflexivity|]. split; [vm_compute; discriminate|vm_compute; reflexivity].
Qed.
Print Assumptions C70_merged_windows_refuted.

(* C68 needs small numbers.  ROWS BETWEEN 4294967297 PRECEDING AND CURRENT ROW is 1 PRECEDING:
   the third row does not count the first. *)
Theorem C68_long_frame_refuted :
  let s := WSpec [] by_y (Some (FRows, NPreceding (2 ^ 32 + 1), CurrentRow)) in
  let p := [xy 1 1; xy 2 2; xy 4 3] in
  match mode_of (plan_frame WCountStar s) with
  | Some m => option_map snd (run_fn by_y m WCountStar (initialize WCountStar) p)
  | None => None
  end = Some [Some (WV (VNum 1)); Some (WV (VNum 2)); Some (WV (VNum 2))] /\
  fn_spec by_y p 2 (xy 4 3) (frame_rows (sql_frame s) by_y p 2 (xy 4 3)) WCountStar (Some (WV (VNum 3))).
Proof. split; vm_compute; reflexivity. Qed.
Print Assumptions C68_long_frame_refuted.

(* ROWS BETWEEN CURRENT ROW AND 2147483647 FOLLOWING overflows an int in the second row *)
Theorem C68_far_frame_refuted :
  let s := WSpec [] by_y (Some (FRows, CurrentRow, NFollowing (2 ^ 31 - 1))) in
  match mode_of (plan_frame WCountStar s) with
  | Some m => run_fn by_y m WCountStar (initialize WCountStar) [xy 1 1; xy 2 2; xy 4 3]
  | None => Some (ICount 0, [])
  end = None.
Proof. vm_compute; reflexivity. Qed.
Print Assumptions C68_far_frame_refuted.

(* NTH_VALUE(x, 4294967297) is the first value, not NULL *)
Theorem C68_nth_value_refuted :
  let s := WSpec [] by_y None in
  let f := WNth (fun r => r 0%nat) (2 ^ 32 + 1) in
  let p := [xy 1 1; xy 2 2; xy 4 3] in
  match mode_of (plan_frame f s) with
  | Some m => option_map snd (run_fn by_y m f (initialize f) p)
  | None => None
  end = Some [Some (WV (VNum 1)); Some (WV (VNum 1)); Some (WV (VNum 1))] /\
  fn_spec by_y p 0 (xy 1 1) (frame_rows (sql_frame s) by_y p 0 (xy 1 1)) f None.
Proof.
  split; [vm_compute; reflexivity|]. set (fr := frame_rows _ _ _ _ _).
  assert (length fr = 1%nat) as L by (vm_compute; reflexivity). clearbody fr. cbn [fn_spec].
  unfold value_at. destruct (Z.ltb_spec (2 ^ 32 + 1 - 1) 0); [lia|].
  now rewrite (proj2 (nth_error_None fr (Z.to_nat (2 ^ 32 + 1 - 1)))) by lia.
Qed.
Print Assumptions C68_nth_value_refuted.

(* the sum of one BIGINT UNSIGNED value is negative *)
Theorem C68_unsigned_sum_refuted :
  let s := WSpec [] [] None in
  let f := WSum (num 0) in
  match mode_of (plan_frame f s) with
  | Some m => option_map snd (run_fn [] m f (initialize f) [xy (2 ^ 63) 1])
  | None => None
  end = Some [Some (WV (VNum (- 2 ^ 63)))].
Proof. vm_compute; reflexivity. Qed.
Print Assumptions C68_unsigned_sum_refuted.

(* ---- the hypotheses can be met ---- *)

Definition ex_p : list row := [xy 5 1; xy 6 1; xy 7 2; xy 8 2; xy 9 4].
Lemma ex_sorted : in_order by_y ex_p.
Proof. repeat (constructor; [|repeat (constructor; [vm_compute; discriminate|]); try constructor]); constructor. Qed.
Example C68_case :
  let s := WSpec [] by_y (Some (FRows, NPreceding 1, NFollowing 1)) in
  (check_valid (WSum (num 0)) s = true /\ in_order by_y ex_p /\ small_fn (WSum (num 0)) ex_p /\ small_frame s ex_p) /\
  match mode_of (plan_frame (WSum (num 0)) s) with
  | Some m => option_map snd (run_fn by_y m (WSum (num 0)) (ISum None) ex_p)
  | None => None
  end = Some (map (fun z => Some (WV (VNum z))) [11; 18; 21; 24; 17]) /\
  let t := WSpec [] by_y None in
  map (fun f => match mode_of (plan_frame f t) with
                | Some m => option_map snd (run_fn by_y m f (initialize f) ex_p)
                | None => None
                end) [WRank; WDenseRank; WNtile 2; WCountStar; WLag (fun r => r 0%nat) 2 None] =
    [Some (map (fun z => Some (WV (VNum z))) [1; 1; 3; 3; 5]); Some (map (fun z => Some (WV (VNum z))) [1; 1; 2; 2; 3]);
     Some (map (fun z => Some (WV (VNum z))) [1; 1; 1; 2; 2]); Some (map (fun z => Some (WV (VNum z))) [2; 2; 4; 4; 5]);
     Some [None; None; Some (WV (VNum 5)); Some (WV (VNum 6)); Some (WV (VNum 7))]].
Proof.
  cbv zeta. split; [|split; vm_compute; reflexivity].
  split; [reflexivity|]. split; [exact ex_sorted|]. split; [vm_compute; reflexivity|]. vm_compute. repeat split; discriminate.
Qed.

(* SELECT SUM(x) OVER w, RANK() OVER w FROM t WINDOW w AS (PARTITION BY y ORDER BY x), the second
   partition cut by the end of a batch *)
Definition ex_s : wspec := WSpec [(INT64, fun r : row => r 1%nat)] [(INT64, fun r : row => r 0%nat, true)] None.
Definition ex_fs : list wfn := [WSum (num 0); WRank].
Definition ex_child : list (list row * bool) := [([xy 5 1; xy 6 1; xy 7 2], false); ([xy 8 2; xy 8 2], false); ([xy 9 4], true)].
Example C69_case :
  (coherent ex_s ex_fs /\ feed ex_child /\ small_table ex_s ex_fs (fed ex_child) /\
   StronglySorted (fun a b => order_compare (sort_keys ex_s) a b <> Gt) (fed ex_child)) /\
  match merge_window_node ex_s ex_fs with
  | Some [w] => match drain w [2%nat; 2%nat; 2%nat; 2%nat; 2%nat] (wopen w ex_child) [] with Some (out, true) => map snd out | _ => [] end
  | _ => []
  end = map (fun x => [Some (WV (VNum (fst x))); Some (WV (VNum (snd x)))]) [(5, 1); (11, 2); (7, 1); (23, 2); (23, 2); (9, 1)].
Proof.
  split; [|vm_compute; reflexivity]. split; [left; reflexivity|]. split.
  - apply feed_more; [discriminate|]. apply feed_more; [discriminate|]. apply feed_last.
  - split; [split|].
    + cbn. repeat (constructor; [split; [intros t e v [E|[]] Ev; injection E as <- <-; cbn in Ev; injection Ev as <-; cbn; unfold int_val_ok; cbn; lia|intros t e []]|]). constructor.
    + intros r Hr. cbn in Hr. cbv zeta.
      repeat (destruct Hr as [<-|Hr]; [split; [vm_compute; reflexivity|split; [exact I|intros f [<-|[<-|[]]]; vm_compute; [reflexivity|exact I]]]|]). destruct Hr.
    + repeat (constructor; [|repeat (constructor; [vm_compute; discriminate|]); try constructor]); constructor.
Qed.
