(* LIMIT on the preserved side of an outer join. *)
From Coq Require Import List ZArith Bool Arith Lia Sorting.Permutation.
From Verif Require Import Common.Bytes Key.Model Key.Spec Join.Model Join.Spec Join.Rows.
Import ListNotations.

Lemma has_key_pairs J : (forall t, In t (j_outer J) -> ~ In t (j_inner J)) -> has_key (j_outer J) (j_inner J) (j_conds J) -> pairs_of J <> [].
Proof.
  intros A (a & b & l & r & Ac & Hc) E. assert (X : In (l, r) (pairs_of J)); [|rewrite E in X; destruct X].
  unfold pairs_of, key_pairs. apply in_flat_map. exists (CEq a b). split; [exact Hc|]. cbn [equal_condition].
  apply slot_pair_across in Ac; [|exact A]. rewrite Ac. now left.
Qed.
Lemma no_key_pairs J : (forall t, In t (j_outer J) -> ~ In t (j_inner J)) -> (forall l r, ~ join_key (j_outer J) (j_inner J) (j_conds J) l r) -> pairs_of J = [].
Proof.
  intros A N. destruct (pairs_of J) as [|[l r] q] eqn:E; [reflexivity|]. exfalso. apply (N l r). apply key_pairs_join; [exact A|].
  unfold pairs_of in E. rewrite E. now left.
Qed.
Lemma cut_at_most k all whole : Permutation all whole -> at_most k (firstn k all) whole.
Proof.
  intros P. split; [rewrite firstn_length, (Permutation_length P); reflexivity|]. exists (skipn k all). now rewrite firstn_skipn.
Qed.

Lemma left_join_app n L R on a b rs : left_join n L R on (a ++ b) rs = left_join n L R on a rs ++ left_join n L R on b rs.
Proof. unfold left_join. apply flat_map_app. Qed.
Lemma left_join_perm n L R on a b rs : Permutation a b -> Permutation (left_join n L R on a rs) (left_join n L R on b rs).
Proof. apply perm_flat_map_list. Qed.
Lemma left_join_length n L R on ls rs : (length ls <= length (left_join n L R on ls rs))%nat.
Proof.
  induction ls as [|o q IH]; [reflexivity|]. unfold left_join in *. cbn [flat_map]. rewrite app_length. cbn [length].
  destruct (partners n L R on o rs); rewrite ?map_length; cbn [length]; lia.
Qed.
Lemma left_join_limit n L R on k ls ls' rs out : at_most k ls' ls -> at_most k out (left_join n L R on ls' rs) -> at_most k out (left_join n L R on ls rs).
Proof.
  intros [Hl (rest & P)] [Ho (r2 & P2)]. pose proof (left_join_perm n L R on _ _ rs P) as Q. rewrite left_join_app in Q.
  pose proof (Permutation_length Q) as QL. rewrite app_length in QL. pose proof (left_join_length n L R on ls' rs) as G.
  pose proof (Permutation_length P) as PL. rewrite app_length in PL.
  split.
  - destruct (Nat.le_gt_cases k (length ls)) as [C|C]; [lia|].
    assert (rest = []) as -> by (destruct rest; [reflexivity|cbn in PL; lia]). cbn [left_join flat_map length] in QL. lia.
  - exists (r2 ++ left_join n L R on rest rs). rewrite app_assoc, P2. exact Q.
Qed.
Lemma left_join_inner_perm n L R on ls a b : Permutation a b -> Permutation (left_join n L R on ls a) (left_join n L R on ls b).
Proof.
  intros P. apply perm_flat_map_ext. intros o _. unfold partners. pose proof (perm_filter (fun r => on (glue n L R o r)) _ _ P) as Q.
  destruct (filter _ a) as [|x u].
  - apply Permutation_nil in Q. rewrite Q. reflexivity.
  - destruct (filter _ b) as [|y v]; [symmetry in Q; now apply Permutation_nil_cons in Q|]. now apply Permutation_map.
Qed.
