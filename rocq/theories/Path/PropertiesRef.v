(* Why C58, C59 and C60 carry the hypotheses they do: a query for each of them that loses a
   row or returns a row that does not meet its conditions. *)
From Coq Require Import List ZArith Sorted Bool Lia.
From Verif Require Import Common.Bytes Common.KV Key.Model Key.Spec Like.Model Like.Spec Path.Model Path.Spec.
From Verif Require Import Path.Scan Path.Read.
Import ListNotations.
Local Open Scope Z_scope.

(* the index holds one row, it meets all conditions and is not returned *)
Definition lost (E : env) (cs : list cond) : Prop :=
  exists r, entries_ok E [r] /\ selected E cs r = true /\
    forall p, plan_for E [] cs = Some p -> answer E cs p None true [r] = [].
(* the index holds one row, it does not meet all conditions and is returned *)
Definition extra (E : env) (cs : list cond) : Prop :=
  exists r p, entries_ok E [r] /\ selected E cs r = false /\ plan_for E [] cs = Some p /\ In r (answer E cs p None true [r]).

Definition r3 (a b c : value) : row :=
  fun f => match f with O => Some a | 1%nat => Some b | 2%nat => Some c | _ => None end.
Definition tab (a b : coltype) (t : itype) (cols pk : list nat) : env :=
  Env false (fun f => match f with O => a | 1%nat => b | _ => INT64 end) CUtf8 t cols pk 100 0 false.
Definition n (z : Z) : option value := Some (VNum z).
Definition s (l : list Z) : option value := Some (VStr l).
Ltac one_entry :=
  split; [apply SSorted_cons; [apply SSorted_nil|apply Forall_nil]|apply Forall_cons; [|apply Forall_nil]; split;
    [unfold index_row; cbn; repeat (constructor; [eexists; split; [reflexivity|cbn; unfold int_val_ok; cbn; repeat constructor; try lia; discriminate]|]); constructor
    |split; [vm_compute; repeat (constructor; [split; congruence|]); constructor|apply short_no_run; vm_compute; lia]]].
Ltac is_lost x := exists x; split; [one_entry|split; [vm_compute; reflexivity|let p := fresh in let H := fresh in intros p H; vm_compute in H; inversion H; vm_compute; reflexivity]].
Ltac is_extra x := exists x; eexists; split; [one_entry|split; [vm_compute; reflexivity|split; [reflexivity|vm_compute; left; reflexivity]]].

(* a IN (1, 2) AND b LIKE 'x_' with PRIMARY KEY (a, b) *)
Theorem C58_like_after_in_refuted :
  lost (tab INT64 STRING TPrimary [0; 1]%nat []) [CIn 0 [n 1; n 2]; CLike 1 (Some [120; 95])].
Proof. is_lost (r3 (VNum 1) (VStr [120; 122]) (VNum 0)). Qed.
Print Assumptions C58_like_after_in_refuted.

(* b LIKE 'x_' AND (a, b) = ('y', 'z') with PRIMARY KEY (a, b) *)
Theorem C58_like_dropped_refuted :
  extra (tab STRING STRING TPrimary [0; 1]%nat []) [CLike 1 (Some [120; 95]); CRow OEq [0; 1]%nat [s [121]; s [122]]].
Proof. is_extra (r3 (VStr [121]) (VStr [122]) (VNum 0)). Qed.
Print Assumptions C58_like_dropped_refuted.

(* (b, a) = ('y', 1) AND b LIKE 'x' with PRIMARY KEY (b, a) *)
Theorem C58_row_and_like_refuted :
  extra (tab INT64 STRING TPrimary [1; 0]%nat []) [CRow OEq [1; 0]%nat [s [121]; n 1]; CLike 1 (Some [120])].
Proof. is_extra (r3 (VNum 1) (VStr [120]) (VNum 0)). Qed.
Print Assumptions C58_row_and_like_refuted.

(* MATCH (a) AND b = 5 with PRIMARY KEY (a, b): all rows are read and b = 5 is not checked *)
Theorem C58_match_column_refuted :
  extra (tab INT64 INT64 TPrimary [0; 1]%nat []) [CMatch 0 (fun _ => true); CCmp OEq 1 (n 5)].
Proof. is_extra (r3 (VNum 7) (VNum 6) (VNum 0)). Qed.
Print Assumptions C58_match_column_refuted.

(* MATCH (b) AND (a, b) = (1, 2): the full-text condition is not checked *)
Theorem C58_match_dropped_refuted :
  extra (tab INT64 INT64 TPrimary [0; 1]%nat []) [CMatch 1 (fun _ => false); CRow OEq [0; 1]%nat [n 1; n 2]].
Proof. is_extra (r3 (VNum 1) (VNum 2) (VNum 0)). Qed.
Print Assumptions C58_match_dropped_refuted.

(* a < 3000000000 on an INT column: the bound wraps to a negative number *)
Theorem C58_constant_out_of_range_refuted :
  lost (tab INT32 INT64 TPrimary [0; 1]%nat []) [CCmp OLt 0 (n 3000000000)].
Proof. is_lost (r3 (VNum 7) (VNum 5) (VNum 0)). Qed.
Print Assumptions C58_constant_out_of_range_refuted.

(* (a, b) > (1, NULL): the row with a = 2 *)
Theorem C58_row_with_null_refuted :
  lost (tab INT64 INT64 TPrimary [0; 1]%nat []) [CRow OGt [0; 1]%nat [n 1; None]].
Proof. is_lost (r3 (VNum 2) (VNum 5) (VNum 0)). Qed.
Print Assumptions C58_row_with_null_refuted.

(* a LIKE '1a' on a BIGINT column: 1 is not like '1a' *)
Theorem C58_like_on_number_refuted :
  extra (tab INT64 INT64 TPrimary [0]%nat []) [CLike 0 (Some [49; 97])].
Proof. is_extra (r3 (VNum 1) (VNum 5) (VNum 0)). Qed.
Print Assumptions C58_like_on_number_refuted.

(* (a, a) = (1, 2) holds for no row *)
Theorem C58_column_twice_refuted :
  extra (tab INT64 INT64 TPrimary [0]%nat []) [CRow OEq [0; 0]%nat [n 1; n 2]].
Proof. is_extra (r3 (VNum 2) (VNum 5) (VNum 0)). Qed.
Print Assumptions C58_column_twice_refuted.

(* KEY (a) of a table with PRIMARY KEY (a, b); (a, b) > (1, 1) AND (a, b) < (2, 5) *)
Theorem C58_row_bounds_refuted :
  lost (tab INT32 INT32 TKey [0]%nat [0; 1]%nat) [CRow OGt [0; 1]%nat [n 1; n 1]; CRow OLt [0; 1]%nat [n 2; n 5]].
Proof. is_lost (r3 (VNum 2) (VNum 3) (VNum 0)). Qed.
Print Assumptions C58_row_bounds_refuted.

(* a closed upper bound given as the front part of a key ends 24 bytes 255 later *)
Theorem C60_long_ff_keys_refuted :
  let k := [1] ++ repeat 255 25 in
  key_sorted (fun k => k) [k] /\ above false [1] k /\ below false [1] k /\
  match iter_open false false ([1], [1]) None with Some it => visit (fun k => k) true it [k] | None => [] end = [].
Proof.
  split; [constructor; constructor|]. split; [right; vm_compute; discriminate|].
  split; [right; right; exists (repeat 255 25); reflexivity|]. vm_compute. reflexivity.
Qed.
Print Assumptions C60_long_ff_keys_refuted.
