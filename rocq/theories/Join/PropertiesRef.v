(* C65, C66: where joins do not have the rows of the SQL join. *)
From Coq Require Import List ZArith Bool Arith Lia Sorting.Permutation.
From Verif Require Import Common.Bytes Key.Model Key.Spec Join.Model Join.Spec Join.Keys Join.Properties.
Import ListNotations.
Local Open Scope nat_scope.

Lemma not_perm {A} (a b : list A) : length a <> length b -> ~ Permutation a b.
Proof. intros N P. apply N. now apply Permutation_length. Qed.

(* orders LEFT JOIN users ON orders.user = users.id AND users.name = 'z': an order whose user has
   several rows with another name comes once for each of them *)
Definition on_name (s : list Z) : jcond := CFun (fun r => match get_value r 1 1 with Some (VStr x) => Some (KV.beqb x s) | _ => None end).
Definition twice : list row := [user 7 [97]; user 7 [98]]%Z.
Theorem C65_left_join_with_condition_refuted : exists out,
  let J := Join 2 JLeft [0] [1] (on_user ++ [on_name [122]%Z]) None in
  inner_gives same J [order 1 (Some 7%Z)] twice [twice] /\
  drain J [100] (open J [order 1 (Some 7%Z)] [twice]) [] = Some out /\
  out = [alone 2 [0] (order 1 (Some 7%Z)); alone 2 [0] (order 1 (Some 7%Z))] /\
  left_join 2 [0] [1] (is_satisfy_filter (on_user ++ [on_name [122]%Z])) [order 1 (Some 7%Z)] twice = [alone 2 [0] (order 1 (Some 7%Z))].
Proof. eexists. cbn zeta. split; [unfold inner_gives; vm_compute; apply Permutation_refl|]. split; [vm_compute; reflexivity|]. split; vm_compute; reflexivity. Qed.
Print Assumptions C65_left_join_with_condition_refuted.

(* LEFT JOIN without an equality: a batch that fills up after a row found its partner makes the
   row come again, with NULLs *)
Definition first_user : jcond := CFun (fun r => match get_value r 1 0 with Some (VNum b) => Some (b =? 7)%Z | _ => None end).
Theorem C65_left_join_in_batches_refuted : exists out,
  let J := Join 2 JLeft [0] [1] [first_user] None in
  inner_gives same J [order 1 None] users [users] /\
  drain J [1; 1; 1] (open J [order 1 None] [users]) [] = Some out /\
  out = [glue 2 [0] [1] (order 1 None) (user 7 [97%Z]); alone 2 [0] (order 1 None)] /\
  left_join 2 [0] [1] (is_satisfy_filter [first_user]) [order 1 None] users = [glue 2 [0] [1] (order 1 None) (user 7 [97%Z])].
Proof. eexists. cbn zeta. split; [unfold inner_gives; vm_compute; apply Permutation_refl|]. split; [vm_compute; reflexivity|]. split; vm_compute; reflexivity. Qed.
Print Assumptions C65_left_join_in_batches_refuted.

(* INNER JOIN on two columns, one number and one text: NULL is written as nothing, so that a row
   with a NULL can have the key of a row without one *)
Definition pair_row (t : nat) (a : option Z) (b : option (list Z)) : row :=
  if t =? 0 then [Some [option_map VNum a; option_map VStr b]; None] else [None; Some [option_map VNum a; option_map VStr b]].
Definition on_both : list jcond := [CEq (OSlot (Slot 0 0 UINT8)) (OSlot (Slot 1 0 UINT8)); CEq (OSlot (Slot 0 1 STRING)) (OSlot (Slot 1 1 STRING))].
Definition J_both := Join 2 JInner [0] [1] on_both None.
Definition with_null : row := pair_row 0 None (Some [65; 66]%Z).
Definition full_left : row := pair_row 0 (Some 65%Z) (Some [66]%Z).
Definition full_right : row := pair_row 1 (Some 65%Z) (Some [66]%Z).
Theorem C65_null_key_refuted : exists out,
  inner_gives same J_both [with_null; full_left] [full_right] [[full_right]] /\
  drain J_both [100] (open J_both [with_null; full_left] [[full_right]]) [] = Some out /\
  In (glue 2 [0] [1] with_null full_right) out /\
  ~ In (glue 2 [0] [1] with_null full_right) (inner_join 2 [0] [1] (is_satisfy_filter on_both) [with_null; full_left] [full_right]).
Proof.
  eexists. split; [unfold inner_gives; vm_compute; apply Permutation_refl|]. split; [vm_compute; reflexivity|]. split; [vm_compute; auto|].
  vm_compute. intros [X|[]]. discriminate X.
Qed.
Print Assumptions C65_null_key_refuted.

(* two text columns, values with NUL bytes *)
Definition text_row (t : nat) (a b : list Z) : row :=
  if t =? 0 then [Some [Some (VStr a); Some (VStr b)]; None] else [None; Some [Some (VStr a); Some (VStr b)]].
Definition on_texts : list jcond := [CEq (OSlot (Slot 0 0 STRING)) (OSlot (Slot 1 0 STRING)); CEq (OSlot (Slot 0 1 STRING)) (OSlot (Slot 1 1 STRING))].
Definition J_texts := Join 2 JInner [0] [1] on_texts None.
Theorem C65_nul_bytes_refuted : exists out,
  let outer := [text_row 0 [97] [0; 98]; text_row 0 [97; 0] [98]]%Z in let inner := [text_row 1 [97; 0] [98]]%Z in
  inner_gives same J_texts outer inner [inner] /\
  drain J_texts [100] (open J_texts outer [inner]) [] = Some out /\ length out = 2 /\
  length (inner_join 2 [0] [1] (is_satisfy_filter on_texts) outer inner) = 1.
Proof. eexists. cbn zeta. split; [unfold inner_gives; vm_compute; apply Permutation_refl|]. split; [vm_compute; reflexivity|]. split; vm_compute; reflexivity. Qed.
Print Assumptions C65_nul_bytes_refuted.

(* LIMIT over a nested loop: after a row found a partner, each inner row counts *)
Theorem C66_limit_over_nested_loop_refuted : exists out,
  let J := Join 2 JInner [0] [1] [first_user] (Some 2) in
  inner_gives same J [order 1 None; order 2 None] users [users] /\
  drain J [100] (open J [order 1 None; order 2 None] [users]) [] = Some out /\ length out = 1 /\
  length (inner_join 2 [0] [1] (is_satisfy_filter [first_user]) [order 1 None; order 2 None] users) = 2.
Proof. eexists. cbn zeta. split; [unfold inner_gives; vm_compute; apply Permutation_refl|]. split; [vm_compute; reflexivity|]. split; vm_compute; reflexivity. Qed.
Print Assumptions C66_limit_over_nested_loop_refuted.

(* FULL JOIN ... LIMIT 1: both sides are cut to one row, which then have no partner although
   they have one in the tables.  This holds of any executor of FULL JOIN. *)
Theorem C66_limit_over_full_join_refuted : exists ls rs ls' rs',
  within (fst (child_limits JFull 1)) ls' ls /\ within (snd (child_limits JFull 1)) rs' rs /\
  let on := is_satisfy_filter on_user in
  forall out, at_most 1 out (full_join 2 [0] [1] on ls' rs') -> ~ at_most 1 out (full_join 2 [0] [1] on ls rs).
Proof.
  exists [order 1 (Some 7); order 3 (Some 8)]%Z, [user 8 [98]; user 7 [97]]%Z, [order 1 (Some 7)]%Z, [user 8 [98]]%Z.
  split; [split; [reflexivity|]; exists [order 3 (Some 8)]%Z; reflexivity|].
  split; [split; [reflexivity|]; exists [user 7 [97]]%Z; reflexivity|]. cbn zeta.
  intros out [L1 (r1 & P1)] [L2 (r2 & P2)]. vm_compute in L1. destruct out as [|x [|y out]]; try discriminate L1.
  assert (I1 : In x (full_join 2 [0] [1] (is_satisfy_filter on_user) [order 1 (Some 7)]%Z [user 8 [98]]%Z)) by (eapply Permutation_in; [exact P1|now left]).
  assert (I2 : In x (full_join 2 [0] [1] (is_satisfy_filter on_user) [order 1 (Some 7); order 3 (Some 8)]%Z [user 8 [98]; user 7 [97]]%Z)) by (eapply Permutation_in; [exact P2|now left]).
  vm_compute in I1, I2. destruct I1 as [<-|[<-|[]]]; destruct I2 as [X|[X|[]]]; discriminate X.
Qed.
Print Assumptions C66_limit_over_full_join_refuted.
