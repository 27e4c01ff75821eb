(* Why C61, C62 and C63 carry the hypotheses they do. *)
From Coq Require Import List ZArith Bool Lia Sorting.Permutation Sorting.Sorted.
From Verif Require Import Common.Bytes Common.KV Key.Model Key.Spec Agg.Model Agg.Spec.
Import ListNotations.
Local Open Scope Z_scope.

(* columns 0, 1, 2; what the calls of an answer return *)
Definition r3 (a b c : option value) : row := fun i => match i with O => a | 1%nat => b | 2%nat => c | _ => None end.
Definition n (z : Z) : option value := Some (VNum z).
Definition col (i : nat) : expr := fun r => r i.
Definition results (cs : list call) (o : option (list mrow)) : option (list (list (option aval))) :=
  match o with Some out => Some (map (fun m => map (fun c => result c m) cs) out) | None => None end.
Definition merged (gs : groups) (cs : list call) (order : list mrow -> list mrow) (regions : list (list row)) : option (list (list (option aval))) :=
  match stores gs cs regions with Some sent => results cs (merge_agg gs cs (order sent)) | None => None end.

(* RB_AND_AGG(b) GROUP BY a over two regions; in one of them b is NULL: the answer depends on
   which region is read first, and is the empty bitmap if it is that one *)
Definition bm (r : row) : option (list Z) := match r 1%nat with Some (VNum _) => Some [1; 2] | _ => None end.
Theorem C61_rb_and_null_part_refuted :
  let gs := [(INT64, col 0)] in
  let cs := [Call 0 (FBits BAnd bm) false] in
  let regions := [[r3 (n 7) None None]; [r3 (n 7) (n 0) None]] in
  Forall (groupable gs) (concat regions) /\
  merged gs cs (fun l => l) regions = Some [[Some (ABits [])]] /\
  merged gs cs (fun l => rev l) regions = Some [[Some (ABits [1; 2])]] /\
  ~ agg_spec (FBits BAnd bm) (concat regions) (Some (ABits [])).
Proof.
  cbv zeta. split; [|split; [vm_compute; reflexivity|split; [vm_compute; reflexivity|]]].
  - cbn [concat app]. repeat (constructor; [split; [intros t e v [E|[]] Ev; injection E as <- <-; cbn in Ev; injection Ev as <-; unfold value_ok, int_val_ok; cbn; lia|intros t e []]|]). constructor.
  - cbn. intros (l & E & _ & Hm). injection E as <-. apply (proj2 (Hm 1)). intros b [<-|[]]. left; reflexivity.
Qed.
Print Assumptions C61_rb_and_null_part_refuted.

(* COUNT(DISTINCT b), COUNT(DISTINCT c) GROUP BY a; b is NULL in all rows of a group in one
   region: the set it sends is an empty string and the frontend reads beyond its end *)
Theorem C61_multi_distinct_null_part_refuted :
  let gs := [(INT64, col 0)] in
  let cs := [Call 0 (FMulti false INT64 (col 1)) false; Call 1 (FMulti false INT64 (col 2)) false] in
  let regions := [[r3 (n 7) None (n 1)]; [r3 (n 7) (n 0) (n 1)]] in
  Forall (groupable gs) (concat regions) /\
  (exists sent, stores gs cs regions = Some sent) /\
  merged gs cs (fun l => l) regions = None /\ merged gs cs (fun l => rev l) regions = None.
Proof.
  cbv zeta. split; [|split; [|split; vm_compute; reflexivity]].
  - cbn [concat app]. repeat (constructor; [split; [intros t e v [E|[]] Ev; injection E as <- <-; cbn in Ev; injection Ev as <-; unfold value_ok, int_val_ok; cbn; lia|intros t e []]|]). constructor.
  - destruct (stores _ _ _) as [l|] eqn:E; [exists l; reflexivity|]. vm_compute in E. discriminate.
Qed.
Print Assumptions C61_multi_distinct_null_part_refuted.

(* SUM(DISTINCT b) beside another DISTINCT sum over no row: 0, not NULL *)
Theorem C61_multi_sum_of_nothing_refuted :
  let cs := [Call 0 (FMulti true INT64 (col 1)) false; Call 1 (FMulti true INT64 (col 2)) false] in
  merged [] cs (fun l => l) [] = Some [[Some (AV (VNum 0)); Some (AV (VNum 0))]] /\
  ~ agg_spec (FMulti true INT64 (col 1)) [] (Some (AV (VNum 0))).
Proof.
  cbv zeta. split; [vm_compute; reflexivity|]. intros (s & _ & Hm & E). destruct s as [|x s]; [discriminate|]. destruct (proj1 (Hm x) (or_introl eq_refl)).
Qed.
Print Assumptions C61_multi_sum_of_nothing_refuted.

(* a NULL in the ninth GROUP BY expression: a shift by a negative number *)
Theorem C62_ninth_null_refuted :
  let gs := map (fun i => (INT64, col i)) (seq 0 9) in
  exists r, (forall i, (i < 8)%nat -> r i = n 1) /\ r 8%nat = None /\ group_key gs r = None.
Proof. cbv zeta. exists (fun i => if (i <? 8)%nat then n 1 else None). split; [|split; reflexivity]. intros i Hi. now rewrite (proj2 (Nat.ltb_lt i 8) Hi). Qed.
Print Assumptions C62_ninth_null_refuted.

(* strings with NUL bytes: ("a\0b", "c") and ("a", "b\0c") are one group *)
Theorem C62_nul_bytes_refuted :
  let gs := [(STRING, col 0); (STRING, col 1)] in
  let r := r3 (Some (VStr [97; 0; 98])) (Some (VStr [99])) None in
  let r' := r3 (Some (VStr [97])) (Some (VStr [98; 0; 99])) None in
  same_group gs r r' = false /\ group_key gs r = group_key gs r' /\ group_key gs r <> None.
Proof. cbv zeta. split; [|split]; vm_compute; [reflexivity|reflexivity|discriminate]. Qed.
Print Assumptions C62_nul_bytes_refuted.

(* types without an encoding (JSON, BITMAP, ...): every value is the same group *)
Theorem C62_other_types_refuted a b : let gs := [(OTHER_TYPE, col 0)] in
  group_key gs (r3 (Some a) None None) = group_key gs (r3 (Some b) None None) /\ group_key gs (r3 (Some a) None None) <> None.
Proof. split; [destruct a, b; reflexivity|destruct a; discriminate]. Qed.
Print Assumptions C62_other_types_refuted.

(* COUNT(DISTINCT a), AVG(DISTINCT b): the inner node groups by (a, b), and COUNT counts an a as
   often as there are b with it *)
Definition num1 (r : row) : option Z := match r 1%nat with Some (VNum z) => Some z | _ => None end.
Theorem C63_count_beside_avg_distinct_refuted :
  let extra := [(INT64, col 0); (INT64, col 1)] in
  let cs := [Call 0 (FCount [col 0]) true; Call 1 (FAvg num1) true] in
  let regions := [[r3 (n 5) (n 1) None; r3 (n 5) (n 2) None]] in
  match stores ([] ++ extra) (inner_calls cs) regions with Some sent => results cs (two_level [] extra cs sent) | None => None end =
    Some [[Some (AV (VNum 2)); Some (AAvg 3 2)]] /\
  (forall reps, one_per [(INT64, col 0)] (concat regions) reps -> length reps = 1%nat).
Proof.
  cbv zeta. split; [vm_compute; reflexivity|]. intros reps (I1 & C1 & D1). cbn [concat app] in *.
  assert (S1 : forall r r', In r reps -> In r' reps -> same_group [(INT64, col 0)] r r' = true).
  { intros r r' Hr Hr'. apply I1 in Hr. apply I1 in Hr'. destruct Hr as [<-|[<-|[]]], Hr' as [<-|[<-|[]]]; vm_compute; reflexivity. }
  destruct reps as [|r [|r' reps]]; [|reflexivity|].
  - destruct (C1 _ (or_introl eq_refl)) as (x & [] & _).
  - exfalso. inversion D1 as [|? ? F _]; subst. inversion F as [|? ? F1 _]; subst. rewrite (S1 r r') in F1; [discriminate|left; reflexivity|right; left; reflexivity].
Qed.
Print Assumptions C63_count_beside_avg_distinct_refuted.

(* GROUP_CONCAT(s ORDER BY k) with an empty string first: its separator is missing *)
Definition text1 (r : row) : option (list Z) := match r 1%nat with Some (VStr s) => Some s | _ => None end.
Theorem C63_concat_empty_text_refuted :
  let extra := [(INT64, col 0)] in
  let f := FConcatBy [44] [text1] [(INT64, col 0, true)] in
  let cs := [Call 0 f false] in
  let regions := [[r3 (n 1) (Some (VStr [])) None; r3 (n 2) (Some (VStr [97])) None]] in
  match stores ([] ++ extra) (inner_calls cs) regions with Some sent => results cs (two_level [] extra cs sent) | None => None end =
    Some [[Some (AV (VStr [97]))]] /\
  ~ agg_spec f (concat regions) (Some (AV (VStr [97]))).
Proof.
  cbv zeta. split; [vm_compute; reflexivity|]. cbn [agg_spec concat app]. intros (l & P & _ & E).
  cbn in P. assert (L : length l = 2%nat) by (apply Permutation_length in P; cbn in P; congruence).
  destruct l as [|a [|b [|c l]]]; try discriminate. clear L.
  assert (Ha : exists s, row_text [text1] a = Some s) by
    (assert (X : In a [a; b]) by (left; reflexivity); apply (Permutation_in _ (Permutation_sym P)) in X; destruct X as [<-|[<-|[]]]; eexists; reflexivity).
  assert (Hb : exists s, row_text [text1] b = Some s) by
    (assert (X : In b [a; b]) by (right; left; reflexivity); apply (Permutation_in _ (Permutation_sym P)) in X; destruct X as [<-|[<-|[]]]; eexists; reflexivity).
  destruct Ha as (s & Ea), Hb as (s' & Eb). unfold nonnull in E. cbn [flat_map] in E. rewrite Ea, Eb in E. cbn [app joined flat_map] in E.
  injection E as E. rewrite app_nil_r in E. apply (f_equal (@length Z)) in E. rewrite app_length in E. cbn [length] in E.
  destruct s as [|x s]; [|cbn [length] in E; lia]. cbn in E. destruct s' as [|x s']; [|cbn in E; lia].
  assert (X : In (r3 (n 2) (Some (VStr [97])) None) [a; b]) by (apply (Permutation_in _ P); right; left; reflexivity).
  destruct X as [X|[X|[]]]; [rewrite X in Ea|rewrite X in Eb]; cbn in *; discriminate.
Qed.
Print Assumptions C63_concat_empty_text_refuted.
