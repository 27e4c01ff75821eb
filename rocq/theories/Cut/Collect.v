(* Which conjuncts predicate_cut works on, and how conjuncts change. *)
From Verif Require Import Common.Bytes Common.KV Expr.Value Expr.Model Expr.Spec Expr.Proofs Expr.RowCompare Cut.Model Cut.Spec Cut.Values Cut.Truth.
Local Open Scope Z_scope.

(* ---- lists ---- *)

Lemma nth_set_same {A} n (x : A) l : (n < length l)%nat -> nth_error (set_nth n x l) n = Some x.
Proof. revert n. induction l as [|y l IH]; intros [|n] L; cbn in *; try lia; [reflexivity|]. apply IH. lia. Qed.
Lemma nth_set_other {A} n m (x : A) l : n <> m -> nth_error (set_nth n x l) m = nth_error l m.
Proof. revert n m. induction l as [|y l IH]; intros [|n] [|m] L; cbn; try reflexivity; try congruence. apply IH. congruence. Qed.
Lemma set_nth_len {A} n (x : A) l : length (set_nth n x l) = length l.
Proof. revert n. induction l as [|y l IH]; intros [|n]; cbn; auto. Qed.
Lemma nth_some_lt {A} (l : list A) n x : nth_error l n = Some x -> (n < length l)%nat.
Proof. intros E. apply nth_error_Some. congruence. Qed.
Lemma F2_nth {A B} (P : A -> B -> Prop) l l' : Forall2 P l l' -> forall n,
  match nth_error l n, nth_error l' n with Some x, Some y => P x y | None, None => True | _, _ => False end.
Proof. induction 1 as [|x y l l' H _ IH]; intros [|n]; cbn; auto. apply IH. Qed.
Lemma F2_of_nth {A B} (P : A -> B -> Prop) l : forall l', (forall n,
  match nth_error l n, nth_error l' n with Some x, Some y => P x y | None, None => True | _, _ => False end) -> Forall2 P l l'.
Proof.
  induction l as [|x l IH]; intros [|y l'] H; [constructor|specialize (H O); contradiction|specialize (H O); contradiction|].
  constructor; [exact (H O)|]. apply IH. intros n. exact (H (S n)).
Qed.
Lemma F2_set {A B} (P : A -> B -> Prop) l l' n x y : Forall2 P l l' -> nth_error l n = Some x -> P x y -> Forall2 P l (set_nth n y l').
Proof.
  intros F. revert n. induction F as [|a b l l' H F IH]; intros [|n] E Q; cbn in *; try discriminate.
  - injection E as ->. constructor; auto.
  - constructor; auto.
Qed.
Lemma F_set {A} (P : A -> Prop) l n y : Forall P l -> P y -> Forall P (set_nth n y l).
Proof. intros F. revert n. induction F; intros [|n] Q; cbn; constructor; auto. Qed.
Lemma nth_F {A} (P : A -> Prop) l n x : Forall P l -> nth_error l n = Some x -> P x.
Proof. intros F E. rewrite Forall_forall in F. apply F. eapply nth_error_In; eauto. Qed.

(* ---- the conjuncts of a column ---- *)

Inductive rk := Req | Rlt | Rgt | Rin.
Definition rk_eqb (a b : rk) : bool :=
  match a, b with Req, Req | Rlt, Rlt | Rgt, Rgt | Rin, Rin => true | _, _ => false end.
Lemma rk_eqb_eq a b : rk_eqb a b = true <-> a = b.
Proof. destruct a, b; cbn; split; congruence. Qed.

Definition role (i : nat) (p : pred) : option rk :=
  match p with
  | Cmp o _ x _ =>
      if at_slot i x then
        match o with CEq => Some Req | CGe | CGt => Some Rgt | CLe | CLt => Some Rlt | CNe => None end
      else None
  | In x _ _ => if at_slot i x then Some Rin else None
  | RowCmp CEq xs _ => if forallb is_slot xs && existsb (at_slot i) xs then Some Req else None
  | RowCmp _ _ _ => None
  | RowIn xs _ _ => if forallb is_slot xs && existsb (at_slot i) xs then Some Rin else None
  | Other _ => None
  end.
Definition has (k : rk) (i : nat) (p : pred) : bool := match role i p with Some k' => rk_eqb k' k | None => false end.
Lemma has_role k i p : has k i p = true <-> role i p = Some k.
Proof. unfold has. destruct (role i p); [|split; discriminate]. rewrite rk_eqb_eq. split; congruence. Qed.

Fixpoint idx (f : pred -> bool) (n : nat) (cs : list pred) : list nat :=
  match cs with [] => [] | p :: q => if f p then n :: idx f (S n) q else idx f (S n) q end.

Lemma idx_in f cs : forall n m, List.In m (idx f n cs) <-> (n <= m)%nat /\ exists p, nth_error cs (m - n) = Some p /\ f p = true.
Proof.
  induction cs as [|p cs IH]; intros n m; cbn [idx].
  - split; [intros []|]. intros (_&p&E&_). destruct (m - n)%nat; discriminate.
  - assert (G : List.In m (idx f (S n) cs) <-> (S n <= m)%nat /\ exists p0, nth_error (p :: cs) (m - n) = Some p0 /\ f p0 = true).
    { rewrite IH. split; intros (L&p0&E&Hf); (split; [lia|]); exists p0; (split; [|exact Hf]);
        replace (m - n)%nat with (S (m - S n)) in * by lia; exact E. }
    assert (N : n = m -> nth_error (p :: cs) (m - n) = Some p) by (intros ->; rewrite Nat.sub_diag; reflexivity).
    destruct (f p) eqn:Ef; cbn [List.In]; rewrite G; split.
    + intros [->|(L&H)]; [split; [lia|]; exists p; auto|]. split; [lia|exact H].
    + intros (L&p0&E&Hf). destruct (Nat.eq_dec n m) as [->|D]; [auto|]. right. split; [lia|eauto].
    + intros (L&H). split; [lia|exact H].
    + intros (L&p0&E&Hf). destruct (Nat.eq_dec n m) as [D|D]; [|split; [lia|eauto]].
      rewrite (N D) in E. congruence.
Qed.
Lemma idx_lt f cs : forall n, Forall (fun m => (n <= m)%nat) (idx f n cs).
Proof. intros n. rewrite Forall_forall. intros m H. apply idx_in in H. apply H. Qed.
Lemma idx_nodup f cs : forall n, NoDup (idx f n cs).
Proof.
  induction cs as [|p cs IH]; intros n; cbn [idx]; [constructor|]. destruct (f p); [|apply IH].
  constructor; [|apply IH]. intros H. apply idx_in in H. lia.
Qed.

(* a row that names columns once adds the conjunct once *)
Lemma add_row_none i n add xs : forall j s, existsb (at_slot i) xs = false -> add_row i n j add xs s = s.
Proof.
  induction xs as [|x xs IH]; intros j s E; cbn in *; [reflexivity|]. apply orb_false_iff in E. destruct E as (->&E). apply IH. exact E.
Qed.
Lemma slot_in i xs : existsb (at_slot i) xs = true <-> List.In i (slots xs).
Proof.
  induction xs as [|[k t|v] xs IH]; cbn; [split; [discriminate|intros []]| |exact IH].
  rewrite orb_true_iff, IH, Nat.eqb_eq. split; intros [H|H]; auto.
Qed.
Lemma add_row_one i n add xs : forall j s, NoDup (slots xs) -> existsb (at_slot i) xs = true ->
  exists k, add_row i n j add xs s = add (set_ref n k s).
Proof.
  induction xs as [|x xs IH]; intros j s N E; cbn [add_row]; [discriminate|].
  destruct (at_slot i x) eqn:A.
  - exists j. apply add_row_none. destruct (existsb (at_slot i) xs) eqn:E2; [|reflexivity]. exfalso.
    apply slot_in in E2. destruct x as [k t|v]; [|discriminate]. cbn in A, N. apply Nat.eqb_eq in A. subst k.
    inversion N; subst; contradiction.
  - cbn in E. rewrite A in E. cbn in E. apply IH; [|exact E]. destruct x as [k t|v]; [|exact N]. cbn in N. inversion N; assumption.
Qed.

Definition rows_once (p : pred) : Prop :=
  match p with RowCmp _ xs _ | RowIn xs _ _ => NoDup (slots xs) | _ => True end.

Definition lists (s : slotpreds) (k : rk) : list nat :=
  match k with Req => sp_eq s | Rlt => sp_lt s | Rgt => sp_gt s | Rin => sp_in s end.

Lemma collect1_ok i n p s k : rows_once p ->
  lists (collect1 i n p s) k = lists s k ++ (if has k i p then [n] else []).
Proof.
  intros O1. unfold has, role. destruct p as [o a x v|x l hn|o xs vs|xs rows hn|e]; cbn [collect1].
  - destruct (at_slot i x); [|rewrite app_nil_r; reflexivity].
    destruct o, k; cbn; rewrite ?app_nil_r; reflexivity.
  - destruct (at_slot i x); [|rewrite app_nil_r; reflexivity]. destruct k; cbn; rewrite ?app_nil_r; reflexivity.
  - destruct (forallb is_slot xs) eqn:E1; cbn [andb]; [|destruct o; rewrite app_nil_r; reflexivity].
    destruct (existsb (at_slot i) xs) eqn:E2.
    + destruct o; destruct (add_row_one i n (fun s => s) xs 0 s O1 E2) as (j1&A1);
        destruct (add_row_one i n (add_eq n) xs 0 s O1 E2) as (j2&A2);
        rewrite ?A1, ?A2; destruct k; cbn; rewrite ?app_nil_r; reflexivity.
    + rewrite add_row_none by exact E2. destruct o; rewrite app_nil_r; reflexivity.
  - destruct (forallb is_slot xs) eqn:E1; cbn [andb]; [|rewrite app_nil_r; reflexivity].
    destruct (existsb (at_slot i) xs) eqn:E2.
    + destruct (add_row_one i n (add_in n) xs 0 s O1 E2) as (j2&A2). rewrite A2. destruct k; cbn; rewrite ?app_nil_r; reflexivity.
    + rewrite add_row_none by exact E2. rewrite app_nil_r. reflexivity.
  - rewrite app_nil_r. reflexivity.
Qed.

Lemma collect_ok i k cs : forall n s, Forall rows_once cs ->
  lists (collect i n cs s) k = lists s k ++ idx (has k i) n cs.
Proof.
  induction cs as [|p cs IH]; intros n s F; cbn [collect idx]; [rewrite app_nil_r; reflexivity|].
  inversion F; subst. rewrite IH by assumption. rewrite collect1_ok by assumption. rewrite <- app_assoc.
  destruct (has k i p); reflexivity.
Qed.

Lemma collect_in i k cs n : Forall rows_once cs ->
  (List.In n (lists (collect i 0 cs sp0) k) <-> exists p, nth_error cs n = Some p /\ role i p = Some k).
Proof.
  intros F. rewrite collect_ok by exact F. replace (lists sp0 k) with (@nil nat) by (destruct k; reflexivity).
  cbn [app]. rewrite idx_in, Nat.sub_0_r. split.
  - intros (_&p&E&H). exists p. split; [exact E|apply has_role; exact H].
  - intros (p&E&H). split; [lia|]. exists p. split; [exact E|apply has_role; exact H].
Qed.
Lemma collect_nodup i k cs : Forall rows_once cs -> NoDup (lists (collect i 0 cs sp0) k).
Proof.
  intros F. rewrite collect_ok by exact F. replace (lists sp0 k) with (@nil nat) by (destruct k; reflexivity). apply idx_nodup.
Qed.

(* ---- change of the conjuncts while columns 0 .. k-1 are worked on ---- *)

Definition lev (k : nat) (x x' : leaf) : Prop :=
  x' = x \/ (exists j t w, x = LSlot j t /\ x' = LVal w /\ (j < k)%nat).
Definition evolved (k : nat) (p0 p : pred) : Prop :=
  match p0, p with
  | Cmp o a x v, Cmp o' a' x' v' => p = p0 \/ ((leaf_top x <= k)%nat /\ (leaf_top x' <= k)%nat)
  | In x l hn, In x' l' hn' => p = p0 \/ ((leaf_top x <= k)%nat /\ (leaf_top x' <= k)%nat)
  | RowCmp o xs vs, RowCmp o' xs' vs' => o' = o /\ vs' = vs /\ Forall2 (lev k) xs xs'
  | RowIn xs rows hn, RowIn xs' rows' hn' => Forall2 (lev k) xs xs'
  | Other e, Other e' => e' = e
  | _, _ => False
  end.

Lemma lev_refl k x : lev k x x. Proof. left. reflexivity. Qed.
Lemma levs_refl k xs : Forall2 (lev k) xs xs.
Proof. induction xs; constructor; auto using lev_refl. Qed.
Lemma evolved_refl k p : evolved k p p.
Proof. destruct p; cbn; auto using levs_refl. Qed.
Lemma lev_mono k k' x x' : (k <= k')%nat -> lev k x x' -> lev k' x x'.
Proof. intros L [->|(j&t&w&->&->&H)]; [left; reflexivity|]. right. exists j, t, w. repeat split; lia. Qed.
Lemma levs_mono k k' xs xs' : (k <= k')%nat -> Forall2 (lev k) xs xs' -> Forall2 (lev k') xs xs'.
Proof. intros L. induction 1; constructor; eauto using lev_mono. Qed.
Lemma evolved_mono k k' p0 p : (k <= k')%nat -> evolved k p0 p -> evolved k' p0 p.
Proof.
  intros L. destruct p0, p; cbn; try contradiction; auto.
  - intros [->|(A&B)]; [left; reflexivity|right; split; lia].
  - intros [->|(A&B)]; [left; reflexivity|right; split; lia].
  - intros (->&->&F). repeat split. eapply levs_mono; eauto.
  - apply levs_mono. exact L.
Qed.

(* the place of a column in a row *)
Lemma slot_idx_in i xs : forall j, existsb (at_slot i) xs = true ->
  exists m t, slot_idx i j xs = Some (j + m)%nat /\ nth_error xs m = Some (LSlot i t).
Proof.
  induction xs as [|x xs IH]; intros j E; cbn [slot_idx]; [discriminate|].
  destruct (existsb (at_slot i) xs) eqn:E2.
  - destruct (IH (S j) eq_refl) as (m&t&S1&N1). rewrite S1. exists (S m), t. split; [f_equal; lia|exact N1].
  - cbn in E. rewrite E2, orb_false_r in E. destruct x as [k t|v]; [|discriminate]. cbn in E. apply Nat.eqb_eq in E. subst k.
    assert (slot_idx i (S j) xs = None) as ->.
    { clear - E2. revert E2. generalize (S j). induction xs as [|x xs IH]; intros j0 E; cbn in *; [reflexivity|].
      apply orb_false_iff in E. destruct E as (A&E). rewrite (IH _ E), A. reflexivity. }
    cbn [at_slot]. rewrite Nat.eqb_refl. exists O, t. split; [f_equal; lia|reflexivity].
Qed.

(* a conjunct of column i that has only been changed for columns below i still is one *)
Definition current (i : nat) (k : rk) (p : pred) : Prop :=
  match p with
  | Cmp o _ x _ => exists t, x = LSlot i t /\
      match o with CEq => k = Req | CGe | CGt => k = Rgt | CLe | CLt => k = Rlt | CNe => False end
  | In x _ _ => exists t, x = LSlot i t /\ k = Rin
  | RowCmp o xs _ => o = CEq /\ k = Req /\ existsb (at_slot i) xs = true
  | RowIn xs _ _ => k = Rin /\ existsb (at_slot i) xs = true
  | Other _ => False
  end.

Lemma lev_at i xs xs' : Forall2 (lev i) xs xs' -> existsb (at_slot i) xs = true -> existsb (at_slot i) xs' = true.
Proof.
  induction 1 as [|x x' xs xs' L _ IH]; cbn; [discriminate|]. rewrite !orb_true_iff. intros [A|A]; [left|right; auto].
  destruct L as [->|(j&t&w&->&->&Lj)]; [exact A|]. cbn in A. apply Nat.eqb_eq in A. lia.
Qed.

Lemma role_current i k p0 p : role i p0 = Some k -> evolved i p0 p -> current i k p.
Proof.
  destruct p0 as [o a x v|x l hn|o xs vs|xs rows hn|e], p as [o' a' x' v'|x' l' hn'|o' xs' vs'|xs' rows' hn'|e'];
    cbn; try contradiction; try discriminate.
  - destruct x as [j t|w]; cbn; [|discriminate]. destruct (Nat.eqb_spec j i) as [->|]; [|discriminate].
    intros R [E|(A&_)]; [|lia]. injection E as -> -> -> ->. exists t. split; [reflexivity|]. destruct o; congruence.
  - destruct x as [j t|w]; cbn; [|discriminate]. destruct (Nat.eqb_spec j i) as [->|]; [|discriminate].
    intros R [E|(A&_)]; [|lia]. injection E as -> -> ->. exists t. split; [reflexivity|]. congruence.
  - destruct o; try discriminate. destruct (forallb is_slot xs); cbn [andb]; [|discriminate].
    destruct (existsb (at_slot i) xs) eqn:E; [|discriminate]. intros R (->&->&F). repeat split; [congruence|]. eapply lev_at; eauto.
  - destruct (forallb is_slot xs); cbn [andb]; [|discriminate].
    destruct (existsb (at_slot i) xs) eqn:E; [|discriminate]. intros R F. split; [congruence|]. eapply lev_at; eauto.
Qed.

(* replacing the column in a row *)
Lemma lev_set i xs xs' j t w : Forall2 (lev (S i)) xs xs' -> nth_error xs' j = Some (LSlot i t) ->
  Forall2 (lev (S i)) xs (set_nth j (LVal w) xs').
Proof.
  intros F E. pose proof (F2_nth _ _ _ F j) as N. rewrite E in N. destruct (nth_error xs j) as [x|] eqn:Ex; [|contradiction].
  eapply F2_set; eauto. destruct N as [<-|(k&u&v&_&D&_)]; [|discriminate]. right. exists i, t, w. repeat split. lia.
Qed.
