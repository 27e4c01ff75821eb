(* C65: joins have the rows of the SQL join.  C66: LIMIT over a join.
   Join/Spec.v says what a join is. *)
From Coq Require Import List ZArith Bool Arith Lia Sorting.Permutation.
From Verif Require Import Common.Bytes Key.Model Key.Spec Join.Model Join.Spec Join.Keys Join.Exec Join.Rows Join.Limit.
Import ListNotations.
Local Open Scope nat_scope.

(* INNER JOIN with any ON clause, hash join or nested loops, inner rows in any batches, a parent
   that takes the rows in batches of any capacity *)
Theorem C65_inner_join : forall J in_eq on outer inner bs caps,
  j_type J = JInner -> j_limit J = None ->
  rows_ok (j_size J) (j_outer J) (j_inner J) (j_conds J) outer inner ->
  nulls_apart (j_outer J) (j_inner J) (j_conds J) outer ->
  in_complete in_eq -> decides on (j_conds J) ->
  inner_gives in_eq J outer inner bs ->
  enough caps (length (inner_join (j_size J) (j_outer J) (j_inner J) on outer inner)) ->
  exists out, drain J caps (open J outer bs) [] = Some out /\
              Permutation out (inner_join (j_size J) (j_outer J) (j_inner J) on outer inner).
Proof.
  intros J in_eq on outer inner bs caps T NL Ok Nu InC On G C. destruct (pairs_of J) as [|p q] eqn:E.
  - destruct (nested_inner_rows J outer inner bs in_eq on Ok InC On G caps E T NL C) as (all & P & D). eauto.
  - destruct (hash_inner_rows J outer inner bs in_eq on Ok Nu InC On G caps) as (all & P & D); [congruence|exact T|exact C|].
    rewrite NL in D. eauto.
Qed.
Print Assumptions C65_inner_join.

(* LEFT JOIN (the outer side is the left one) and RIGHT JOIN (it is the right one) with an
   equality in the ON clause: nothing but equalities, or at most one candidate per row *)
Theorem C65_outer_join_on_equalities : forall J in_eq on outer inner bs caps,
  j_type J = JLeft \/ j_type J = JRight -> j_limit J = None ->
  rows_ok (j_size J) (j_outer J) (j_inner J) (j_conds J) outer inner ->
  nulls_apart (j_outer J) (j_inner J) (j_conds J) outer ->
  in_complete in_eq -> decides on (j_conds J) ->
  has_key (j_outer J) (j_inner J) (j_conds J) ->
  only_keys (j_outer J) (j_inner J) (j_conds J) \/ at_most_one (j_outer J) (j_inner J) (j_conds J) outer inner ->
  inner_gives in_eq J outer inner bs ->
  enough caps (length (left_join (j_size J) (j_outer J) (j_inner J) on outer inner)) ->
  exists out, drain J caps (open J outer bs) [] = Some out /\
              Permutation out (left_join (j_size J) (j_outer J) (j_inner J) on outer inner).
Proof.
  intros J in_eq on outer inner bs caps T NL Ok Nu InC On K D G C.
  destruct (hash_outer_rows J outer inner bs in_eq on Ok Nu InC On G caps) as (all & P & E); auto.
  - apply has_key_pairs; [apply (ok_apart _ _ _ _ _ _ Ok)|exact K].
  - rewrite NL in E. eauto.
Qed.
Print Assumptions C65_outer_join_on_equalities.

(* ... and without one, if the batch takes all rows *)
Theorem C65_outer_join_without_equalities : forall J in_eq on outer inner bs cap,
  j_type J = JLeft \/ j_type J = JRight -> j_limit J = None ->
  rows_ok (j_size J) (j_outer J) (j_inner J) (j_conds J) outer inner ->
  in_complete in_eq -> decides on (j_conds J) ->
  (forall l r, ~ join_key (j_outer J) (j_inner J) (j_conds J) l r) ->
  inner_gives in_eq J outer inner bs ->
  length (left_join (j_size J) (j_outer J) (j_inner J) on outer inner) < cap ->
  exists out, drain J [cap] (open J outer bs) [] = Some out /\
              Permutation out (left_join (j_size J) (j_outer J) (j_inner J) on outer inner).
Proof.
  intros J in_eq on outer inner bs cap T NL Ok InC On K G C.
  destruct (nested_outer_rows J outer inner bs in_eq on Ok InC On G cap) as (all & P & E); auto.
  - apply no_key_pairs; [apply (ok_apart _ _ _ _ _ _ Ok)|exact K].
  - exists all. split; [apply E|exact P].
Qed.
Print Assumptions C65_outer_join_without_equalities.

(* LIMIT k: k of the rows, or all of them.  A child with a limit gives that many rows. *)
Theorem C66_limit_over_inner_join : forall J k in_eq on outer inner outer' inner' bs caps,
  j_type J = JInner -> j_limit J = Some k ->
  within (outer_limit (j_type J) k) outer' outer -> within (inner_limit (j_type J) k) inner' inner ->
  rows_ok (j_size J) (j_outer J) (j_inner J) (j_conds J) outer' inner' ->
  nulls_apart (j_outer J) (j_inner J) (j_conds J) outer' ->
  in_complete in_eq -> decides on (j_conds J) ->
  has_key (j_outer J) (j_inner J) (j_conds J) ->
  inner_gives in_eq J outer' inner' bs ->
  enough caps (length (inner_join (j_size J) (j_outer J) (j_inner J) on outer' inner')) ->
  exists out, drain J caps (open J outer' bs) [] = Some out /\
              at_most k out (inner_join (j_size J) (j_outer J) (j_inner J) on outer inner).
Proof.
  intros J k in_eq on outer inner outer' inner' bs caps T NL W1 W2 Ok Nu InC On K G C. rewrite T in W1, W2. cbn in W1, W2.
  destruct (hash_inner_rows J outer' inner' bs in_eq on Ok Nu InC On G caps) as (all & P & E); auto.
  - apply has_key_pairs; [apply (ok_apart _ _ _ _ _ _ Ok)|exact K].
  - rewrite NL in E. exists (firstn k all). split; [exact E|]. apply cut_at_most. rewrite P. unfold inner_join.
    rewrite (perm_flat_map_list _ _ _ W1). apply perm_flat_map_ext. intros o _. apply Permutation_map. unfold partners. now apply perm_filter.
Qed.
Print Assumptions C66_limit_over_inner_join.

Theorem C66_limit_over_outer_join : forall J k in_eq on outer inner outer' inner' bs caps,
  j_type J = JLeft \/ j_type J = JRight -> j_limit J = Some k ->
  within (outer_limit (j_type J) k) outer' outer -> within (inner_limit (j_type J) k) inner' inner ->
  rows_ok (j_size J) (j_outer J) (j_inner J) (j_conds J) outer' inner' ->
  nulls_apart (j_outer J) (j_inner J) (j_conds J) outer' ->
  in_complete in_eq -> decides on (j_conds J) ->
  has_key (j_outer J) (j_inner J) (j_conds J) ->
  only_keys (j_outer J) (j_inner J) (j_conds J) \/ at_most_one (j_outer J) (j_inner J) (j_conds J) outer' inner' ->
  inner_gives in_eq J outer' inner' bs ->
  enough caps (length (left_join (j_size J) (j_outer J) (j_inner J) on outer' inner')) ->
  exists out, drain J caps (open J outer' bs) [] = Some out /\
              at_most k out (left_join (j_size J) (j_outer J) (j_inner J) on outer inner).
Proof.
  intros J k in_eq on outer inner outer' inner' bs caps T NL W1 W2 Ok Nu InC On K D G C.
  assert (W1' : at_most k outer' outer) by (destruct T as [T|T]; rewrite T in W1; exact W1).
  assert (W2' : Permutation inner' inner) by (destruct T as [T|T]; rewrite T in W2; exact W2).
  destruct (hash_outer_rows J outer' inner' bs in_eq on Ok Nu InC On G caps) as (all & P & E); auto.
  - apply has_key_pairs; [apply (ok_apart _ _ _ _ _ _ Ok)|exact K].
  - rewrite NL in E. exists (firstn k all). split; [exact E|]. eapply left_join_limit; [exact W1'|]. apply cut_at_most. rewrite P.
    apply left_join_inner_perm. exact W2'.
Qed.
Print Assumptions C66_limit_over_outer_join.

(* ---- the hypotheses are met ---- *)

(* orders(id, user) tuple 0, users(id, name) tuple 1 *)
Definition order (i : Z) (u : option Z) : row := [Some [Some (VNum i); option_map VNum u]; None].
Definition user (i : Z) (s : list Z) : row := [None; Some [Some (VNum i); Some (VStr s)]].
Definition orders : list row := [order 1 (Some 7); order 2 None; order 3 (Some 8); order 4 (Some 7); order 5 (Some 9)]%Z.
Definition users : list row := [user 7 [97]; user 8 [98]; user 6 [99]]%Z.
Definition o_user := Slot 0 1 INT64. Definition u_id := Slot 1 0 INT32.
Definition on_user : list jcond := [CEq (OSlot u_id) (OSlot o_user)].
Definition same (a b : coltype) (v w : value) : bool := eq_fn a b (Some v) (Some w).
Definition J_inner := Join 2 JInner [0] [1] on_user None.
Definition J_left := Join 2 JLeft [0] [1] on_user None.
Definition out_of (J : join) caps outer bs := drain J caps (open J outer bs) [].

Example inner_rows_ex : out_of J_inner [2; 2; 2; 2] orders [[user 8 [98]]; []; [user 7 [97]]]%Z =
  Some [[Some [Some (VNum 3); Some (VNum 8)]; Some [Some (VNum 8); Some (VStr [98])]];
        [Some [Some (VNum 1); Some (VNum 7)]; Some [Some (VNum 7); Some (VStr [97])]];
        [Some [Some (VNum 4); Some (VNum 7)]; Some [Some (VNum 7); Some (VStr [97])]]]%Z.
Proof. vm_compute. reflexivity. Qed.
Example left_rows_ex : out_of J_left [2; 2; 2; 2] orders [[user 8 [98]]; []; [user 7 [97]]]%Z =
  Some [[Some [Some (VNum 1); Some (VNum 7)]; Some [Some (VNum 7); Some (VStr [97])]];
        [Some [Some (VNum 2); None]; None];
        [Some [Some (VNum 3); Some (VNum 8)]; Some [Some (VNum 8); Some (VStr [98])]];
        [Some [Some (VNum 4); Some (VNum 7)]; Some [Some (VNum 7); Some (VStr [97])]];
        [Some [Some (VNum 5); Some (VNum 9)]; None]]%Z.
Proof. vm_compute. reflexivity. Qed.

Lemma key_on_user l r : join_key [0] [1] on_user l r -> l = o_user /\ r = u_id.
Proof.
  intros (a & b & ([[-> ->]|[-> ->]] & Hl & Hr) & [X|(ps & [X|[]] & _)]); try discriminate X; destruct X as [X|[]]; injection X as <- <-.
  - cbn in Hl. destruct Hl as [Hl|[]]; discriminate Hl.
  - auto.
Qed.
Lemma on_user_ok : rows_ok 2 [0] [1] on_user orders users.
Proof.
  split.
  - intros t [<-|[]] [E|[]]; discriminate.
  - intros t [[<-|[]]|[<-|[]]]; lia.
  - intros l r K. apply key_on_user in K as [-> ->]. split; [right; auto|]. split.
    + repeat constructor; intros v [= <-]; cbn; unfold int_val_ok; cbn; lia.
    + repeat constructor; intros v [= <-]; cbn; unfold int_val_ok; cbn; lia.
Qed.
Lemma on_user_nulls : nulls_apart [0] [1] on_user orders.
Proof. right. left. intros l r K. apply key_on_user in K as [-> ->]. reflexivity. Qed.
Lemma same_complete : in_complete same.
Proof. intros a b v w E. unfold same. now apply eq_fn_spec. Qed.
Lemma filter_decides cs : decides (is_satisfy_filter cs) cs.
Proof. intros r. apply filter_spec. Qed.
Lemma on_user_key : has_key [0] [1] on_user.
Proof. exists (OSlot u_id), (OSlot o_user), o_user, u_id. repeat split; cbn; auto. Qed.
Lemma on_user_only : only_keys [0] [1] on_user.
Proof. repeat constructor. exists o_user, u_id. repeat split; cbn; auto. Qed.
Lemma gives_ex T k : inner_gives same (Join 2 T [0] [1] on_user k) orders users [[user 8 [98]]; []; [user 7 [97]]]%Z.
Proof. unfold inner_gives. vm_compute. apply perm_swap. Qed.

Example C65_inner_join_applies : exists out, out_of J_inner [2; 2; 2; 2] orders [[user 8 [98]]; []; [user 7 [97]]]%Z = Some out /\
  Permutation out (inner_join 2 [0] [1] (is_satisfy_filter on_user) orders users).
Proof.
  apply (C65_inner_join J_inner same); auto using on_user_ok, on_user_nulls, same_complete, filter_decides.
  - apply gives_ex.
  - split; [vm_compute; lia|repeat constructor].
Qed.
Example C65_outer_join_applies : exists out, out_of J_left [2; 2; 2; 2; 9; 9] orders [[user 8 [98]]; []; [user 7 [97]]]%Z = Some out /\
  Permutation out (left_join 2 [0] [1] (is_satisfy_filter on_user) orders users).
Proof.
  apply (C65_outer_join_on_equalities J_left same); auto using on_user_ok, on_user_nulls, same_complete, filter_decides, on_user_key, on_user_only.
  - apply gives_ex.
  - split; [vm_compute; lia|repeat constructor].
Qed.
Example C66_limit_applies : exists out, out_of (Join 2 JLeft [0] [1] on_user (Some 3)) [2; 2; 2; 2; 9; 9] (firstn 3 orders) [[user 8 [98]]; []; [user 7 [97]]]%Z = Some out /\
  at_most 3 out (left_join 2 [0] [1] (is_satisfy_filter on_user) orders users).
Proof.
  apply (C66_limit_over_outer_join (Join 2 JLeft [0] [1] on_user (Some 3)) 3 same _ orders users (firstn 3 orders) users); cbn [j_type j_limit j_size j_outer j_inner j_conds]; auto using same_complete, filter_decides, on_user_key, on_user_only.
  - split; [reflexivity|]. exists (skipn 3 orders). now rewrite firstn_skipn.
  - reflexivity.
  - destruct on_user_ok as [A B C]. split; auto. intros l r K. destruct (C l r K) as (D & E & F). split; [exact D|]. split; [|exact F].
    rewrite <- (firstn_skipn 3 orders) in E. apply Forall_app in E. apply E.
  - right. left. intros l r K. apply key_on_user in K as [-> ->]. reflexivity.
  - unfold inner_gives. vm_compute. apply perm_swap.
  - split; [vm_compute; lia|repeat constructor].
Qed.
Definition apart : jcond := CFun (fun r => match get_value r 0 0, get_value r 1 0 with Some (VNum a), Some (VNum b) => Some (a + 4 <? b)%Z | _, _ => None end).
Definition J_apart := Join 2 JLeft [0] [1] [apart] None.
Example C65_without_equalities_applies : exists out, out_of J_apart [20] orders [users] = Some out /\
  Permutation out (left_join 2 [0] [1] (is_satisfy_filter [apart]) orders users).
Proof.
  assert (K : forall l r, ~ join_key [0] [1] [apart] l r) by (intros l r (a & b & _ & [[X|[]]|(ps & [X|[]] & _)]); discriminate X).
  apply (C65_outer_join_without_equalities J_apart same); cbn [J_apart j_type j_limit j_size j_outer j_inner j_conds]; auto using same_complete, filter_decides.
  - destruct on_user_ok as [A B _]. split; auto. intros l r X. destruct (K l r X).
  - unfold inner_gives. vm_compute. apply Permutation_refl.
  - vm_compute. lia.
Qed.
