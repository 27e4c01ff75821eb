(* one aggregate call: what its slot and its private state hold while rows come in *)
From Coq Require Import List ZArith Bool Lia Sorting.Permutation Sorting.Sorted.
From Verif Require Import Common.Bytes Key.Model Key.Spec Agg.Model Agg.Spec Agg.Bits Agg.Sets Agg.Lists Agg.Group.
Import ListNotations.
Local Open Scope Z_scope.

Record view := V { v_int : option aval; v_fin : option aval; v_aux : aux }.
Definition look (c : call) (g : grp) : view := V (m_int (g_row g) (c_slot c)) (m_fin (g_row g) (c_slot c)) (g_aux g (c_slot c)).

Lemma slot_set_same {A} (f : nat -> A) i v : slot_set f i v i = v.
Proof. unfold slot_set. now rewrite Nat.eqb_refl. Qed.
Lemma slot_set_other {A} (f : nat -> A) i v j : j <> i -> slot_set f i v j = f j.
Proof. intros Ne. unfold slot_set. destruct (Nat.eqb_spec j i); congruence. Qed.

Lemma look_slot c g : slot c g = v_int (look c g).
Proof. reflexivity. Qed.
Lemma look_x c g : xget c g = v_aux (look c g).
Proof. reflexivity. Qed.
Lemma look_set_slot c v g : look c (set_slot c v g) = V v (v_fin (look c g)) (v_aux (look c g)).
Proof. unfold look, set_slot. cbn. now rewrite slot_set_same. Qed.
Lemma look_set_fin c v g : look c (set_fin c v g) = V (v_int (look c g)) v (v_aux (look c g)).
Proof. unfold look, set_fin. cbn. now rewrite slot_set_same. Qed.
Lemma look_xset c x g : look c (xset c x g) = V (v_int (look c g)) (v_fin (look c g)) x.
Proof. unfold look, xset. cbn. now rewrite slot_set_same. Qed.
Lemma look_set_bits c b g : look c (set_bits c b g) =
  V (v_int (look c g)) (v_fin (look c g)) (Aux (Some b) (x_set (v_aux (look c g))) (x_batch (v_aux (look c g)))).
Proof. unfold set_bits. rewrite look_xset. reflexivity. Qed.
Lemma look_set_set c s g : look c (set_set c s g) =
  V (v_int (look c g)) (v_fin (look c g)) (Aux (x_bits (v_aux (look c g))) s (x_batch (v_aux (look c g)))).
Proof. unfold set_set. rewrite look_xset. reflexivity. Qed.
Lemma look_add_batch c b g : look c (add_batch c b g) =
  V (v_int (look c g)) (v_fin (look c g)) (Aux (x_bits (v_aux (look c g))) (x_set (v_aux (look c g))) (x_batch (v_aux (look c g)) ++ [b])).
Proof. unfold add_batch. rewrite look_xset. reflexivity. Qed.
Lemma look_bits_val c g : bits_val c g = match x_bits (v_aux (look c g)) with Some b => b | None => (false, []) end.
Proof. reflexivity. Qed.

(* membership of a bitmap result *)
Definition bset (f : fn) (R : list row) (x : Z) : Prop :=
  match f with
  | FBits BOr e => exists b, In b (nonnull e R) /\ In x b
  | FBits BAnd e => forall b, In b (nonnull e R) -> In x b
  | FBits BXor e => Nat.odd (length (filter (fun b => existsb (Z.eqb x) b) (nonnull e R))) = true
  | FBuild e => exists z, In z (nonnull e R) /\ x = z mod 2 ^ 32
  | _ => True
  end.
Definition bitsof (f : fn) (R : list row) (l : list Z) : Prop := increasing l /\ forall x, In x l <-> bset f R x.

(* GROUP_CONCAT ... ORDER BY: every collected text comes from rows of equal keys *)
Definition has_text (es : list (row -> option (list Z))) (r : row) : bool :=
  match row_text es r with None => false | _ => true end.
Definition chunk (sep : list Z) (es : list (row -> option (list Z))) (keys : list (coltype * expr * bool))
  (br : batch_row) (b : list row) : Prop :=
  Forall (fun r => has_text es r = true) b /\ joined sep (nonnull (row_text es) b) = Some (AV (VStr (snd br))) /\
  exists r0, fst br = key_values keys r0 /\ forall r, In r b -> order_compare keys r0 r = Eq.

(* state of a call after the rows R of its group *)
Definition run (f : fn) (R : list row) (v : view) : Prop :=
  match f with
  | FAvg e => v_int v = Some (AAvg (zsum (nonnull e R)) (Z.of_nat (length (nonnull e R))))
  | FBits BAnd e =>
      match nonnull e R with
      | [] => exists l, x_bits (v_aux v) = Some (false, l)
      | _ => exists l, x_bits (v_aux v) = Some (true, l) /\ bitsof f R l
      end
  | FBits _ _ | FBuild _ => exists l, x_bits (v_aux v) = Some (true, l) /\ bitsof f R l
  | FConcatBy sep es keys =>
      exists bs, Forall2 (chunk sep es keys) (x_batch (v_aux v)) bs /\ Permutation (filter (has_text es) R) (concat bs)
  | FMulti _ _ e =>
      NoDup (x_set (v_aux v)) /\ (forall x, In x (x_set (v_aux v)) <-> In x (nonnull e R)) /\
      (v_int v = None \/ exists b s, v_int v = Some (AV (VStr b)) /\ unserialize b = Some s /\ incl s (x_set (v_aux v)))
  | _ => agg_spec f R (v_int v)
  end.

(* what a node sends about the rows R of a group *)
Definition acc (f : fn) (R : list row) (s : option aval) : Prop :=
  match f with
  | FAvg e => s = Some (AAvg (zsum (nonnull e R)) (Z.of_nat (length (nonnull e R))))
  | FBits BAnd e =>
      match nonnull e R with [] => s = None | _ => exists l, s = Some (ABits l) /\ bitsof f R l end
  | FBits _ _ | FBuild _ => exists l, s = Some (ABits l) /\ bitsof f R l
  | FConcatBy sep es keys => agg_spec (FConcat sep es) R s
  | FMulti _ t e =>
      exists set, NoDup set /\ (forall x, In x set <-> In x (nonnull e R)) /\ s = Some (AV (VStr (serialize t set)))
  | _ => agg_spec f R s
  end.

(* ---- fits, permutations ---- *)

Lemma fits_perm f a b : Permutation a b -> fits f a -> fits f b.
Proof.
  intros P. destruct f; cbn [fits]; auto.
  - intros B. rewrite <- (zsum_perm _ _ (Permutation_map Z.abs (nonnull_perm e _ _ P))). exact B.
  - rewrite !Forall_forall. intros F l Hl. apply F. eapply Permutation_in; [apply Permutation_sym, nonnull_perm, P|exact Hl].
  - rewrite !Forall_forall. intros F l Hl. apply F. eapply Permutation_in; [apply Permutation_sym, nonnull_perm, P|exact Hl].
  - intros [A B]. split.
    + intros v Hv. apply A. eapply Permutation_in; [apply Permutation_sym, nonnull_perm, P|exact Hv].
    + intros s N Is. apply B; [exact N|]. intros x Hx. eapply Permutation_in; [apply Permutation_sym, nonnull_perm, P|auto].
Qed.
Lemma fits_app f a b : fits f (a ++ b) -> fits f a /\ fits f b.
Proof.
  destruct f; cbn [fits]; auto; rewrite ?nonnull_app.
  - rewrite map_app, zsum_app. pose proof (abs_nonneg (nonnull e a)). pose proof (abs_nonneg (nonnull e b)). lia.
  - apply Forall_app.
  - apply Forall_app.
  - intros [A B]. split; split; [intros v Hv; apply A, in_app_iff; auto | intros s N Is; apply B; auto; intros x Hx; apply in_app_iff; auto
      | intros v Hv; apply A, in_app_iff; auto | intros s N Is; apply B; auto; intros x Hx; apply in_app_iff; auto].
Qed.

Lemma match_nil_perm {A B} (a b : list A) (x y : B) : Permutation a b ->
  match a with [] => x | _ => y end = match b with [] => x | _ => y end.
Proof.
  intros P. destruct a, b; auto; [apply Permutation_nil in P|apply Permutation_sym, Permutation_nil in P]; discriminate.
Qed.
Lemma bset_perm f a b x : Permutation a b -> bset f a x -> bset f b x.
Proof.
  intros P. destruct f; cbn [bset]; auto.
  - pose proof (nonnull_perm e a b P) as Q. destruct o.
    + intros (l & Hl & Hx). exists l. split; [eapply Permutation_in; eauto|exact Hx].
    + intros Hb l Hl. apply Hb. eapply Permutation_in; [apply Permutation_sym, Q|exact Hl].
    + intros <-. f_equal. apply Permutation_length. clear - Q.
      induction Q; cbn [filter]; auto; repeat match goal with |- context [if ?c then _ else _] => destruct c end; auto using perm_swap.
      etransitivity; eauto.
  - pose proof (nonnull_perm e a b P) as Q. intros (z & Hz & Hx). exists z. split; [eapply Permutation_in; eauto|exact Hx].
Qed.
Lemma bitsof_perm f a b l : Permutation a b -> bitsof f a l -> bitsof f b l.
Proof.
  intros P [I0 M]. split; [exact I0|]. intros x. rewrite M. split; apply bset_perm; [exact P|apply Permutation_sym, P].
Qed.
Lemma filter_perm {A} (f : A -> bool) a b : Permutation a b -> Permutation (filter f a) (filter f b).
Proof.
  intros Q. induction Q; cbn [filter]; auto; repeat match goal with |- context [if ?c then _ else _] => destruct c end; auto using perm_swap.
  etransitivity; eauto.
Qed.

Lemma spec_sum uns e R v : agg_spec (FSum uns e) R v <-> v = sumspec uns (nonnull e R).
Proof. cbn [agg_spec]. unfold sumspec, wrap. destruct (nonnull e R), uns; reflexivity. Qed.

Definition avgspec (l : list Z) : option aval :=
  match l with [] => None | _ => Some (AAvg (zsum l) (Z.of_nat (length l))) end.
Lemma spec_avg e R v : agg_spec (FAvg e) R v <-> v = avgspec (nonnull e R).
Proof. cbn [agg_spec]. unfold avgspec. destruct (nonnull e R); reflexivity. Qed.
Definition andspec (e : row -> option (list Z)) (R : list row) (v : option aval) : Prop :=
  match nonnull e R with [] => v = None | _ => exists l, v = Some (ABits l) /\ bitsof (FBits BAnd e) R l end.
Lemma spec_and e R v : agg_spec (FBits BAnd e) R v <-> andspec e R v.
Proof. cbn [agg_spec]. unfold andspec, bitsof, bset. destruct (nonnull e R); reflexivity. Qed.

Lemma spec_min t e R v : agg_spec (FMin t e) R v <-> extspec false t (nonnull e R) v.
Proof. cbn [agg_spec]. unfold extspec. destruct (nonnull e R); reflexivity. Qed.
Lemma spec_max t e R v : agg_spec (FMax t e) R v <-> extspec true t (nonnull e R) v.
Proof. cbn [agg_spec]. unfold extspec. destruct (nonnull e R); reflexivity. Qed.

Lemma spec_perm f a b v : Permutation a b -> agg_spec f a v -> agg_spec f b v.
Proof.
  intros P. pose proof (@filter_perm) as FP. destruct f; cbn [agg_spec].
  - now rewrite (Permutation_length P).
  - now rewrite (Permutation_length (FP _ _ _ _ P)).
  - intros H0. apply spec_sum in H0. apply spec_sum. revert H0. now rewrite (sumspec_perm _ _ _ (nonnull_perm e _ _ P)).
  - intros H0. apply spec_avg in H0. apply spec_avg. revert H0. unfold avgspec.
    rewrite (zsum_perm _ _ (nonnull_perm e _ _ P)), (Permutation_length (nonnull_perm e _ _ P)).
    now rewrite (match_nil_perm _ _ _ _ (nonnull_perm e _ _ P)).
  - intros H0. apply spec_min in H0. apply spec_min. revert H0. apply (extspec_perm false t _ _ v (nonnull_perm e _ _ P)).
  - intros H0. apply spec_max in H0. apply spec_max. revert H0. apply (extspec_perm true t _ _ v (nonnull_perm e _ _ P)).
  - pose proof (nonnull_perm e _ _ P) as Q. pose proof (fun l => bitsof_perm (FBits o e) a b l P) as B. unfold bitsof, bset in B. destruct o.
    + rewrite (match_nil_perm _ _ _ _ P). destruct b; [auto|]. intros (l & E & Hl). exists l. split; [exact E|]. apply B, Hl.
    + intros H0. apply spec_and in H0. apply spec_and. revert H0. unfold andspec.
      rewrite (match_nil_perm _ _ _ _ Q). destruct (nonnull e b); [auto|]. intros (l' & E & Hl). exists l'. split; [exact E|].
      eapply bitsof_perm; eauto.
    + rewrite (match_nil_perm _ _ _ _ P). destruct b; [auto|]. intros (l & E & Hl). exists l. split; [exact E|]. apply B, Hl.
  - pose proof (fun l => bitsof_perm (FBuild e) a b l P) as B. unfold bitsof, bset in B.
    rewrite (match_nil_perm _ _ _ _ P). destruct b; [auto|]. intros (l & E & Hl). exists l. split; [exact E|]. apply B, Hl.
  - intros (l & Hl & E). exists l. split; [|exact E]. etransitivity; [apply Permutation_sym, nonnull_perm, P|exact Hl].
  - intros (l & Hl & S0 & E). exists l. split; [|split; assumption]. etransitivity; [apply Permutation_sym, FP, P|exact Hl].
  - intros (s & N & M & E). exists s. split; [exact N|]. split; [|exact E]. intros x. rewrite M.
    split; apply Permutation_in, nonnull_perm; [exact P|apply Permutation_sym, P].
Qed.

Lemma run_perm f a b v : Permutation a b -> run f a v -> run f b v.
Proof.
  intros P. destruct f; try (apply (spec_perm _ _ _ _ P)); cbn [run].
  - now rewrite (zsum_perm _ _ (nonnull_perm e _ _ P)), (Permutation_length (nonnull_perm e _ _ P)).
  - pose proof (fun l => bitsof_perm (FBits o e) a b l P) as B. destruct o.
    + intros (l & E & Hl). exists l. auto.
    + rewrite (match_nil_perm _ _ _ _ (nonnull_perm e _ _ P)). destruct (nonnull e b); [auto|]. intros (l' & E & Hl). exists l'. auto.
    + intros (l & E & Hl). exists l. auto.
  - intros (l & E & Hl). exists l. split; [exact E|]. eapply bitsof_perm; eauto.
  - intros (bs & F & Hp). exists bs. split; [exact F|]. etransitivity; [apply Permutation_sym, filter_perm, P|exact Hp].
  - intros (N & M & E). split; [exact N|]. split; [|exact E]. intros x. rewrite M.
    split; apply Permutation_in, nonnull_perm; [exact P|apply Permutation_sym, P].
Qed.
