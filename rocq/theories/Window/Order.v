(* Proofs: a partition in order; peers and frames as intervals. *)
From Coq Require Import List ZArith Bool Lia Sorting.Sorted.
From Verif Require Import Common.Bytes Key.Model Key.Spec Agg.Model Agg.Spec Agg.Lists Window.Model Window.Spec Window.Fn.
Import ListNotations.
Local Open Scope Z_scope.

Lemma key_lengths keys r : length (key_values keys r) = length (key_types keys).
Proof. unfold key_values, key_types. now rewrite !map_length. Qed.
Lemma oc_anti keys a b : order_compare keys b a = CompOpp (order_compare keys a b).
Proof. rewrite <- !key_order. apply kc_antisym. Qed.
Lemma oc_refl keys a : order_compare keys a a = Eq.
Proof. pose proof (oc_anti keys a a). now destruct (order_compare keys a a). Qed.
Lemma oc_trans keys a b c : order_compare keys a b <> Gt -> order_compare keys b c <> Gt -> order_compare keys a c <> Gt.
Proof. rewrite <- !key_order. apply kc_trans; apply key_lengths. Qed.
Lemma oc_eq_l keys a b c : order_compare keys a b = Eq -> order_compare keys a c = order_compare keys b c.
Proof.
  intros E. assert (order_compare keys b a = Eq) as E' by (rewrite oc_anti, E; reflexivity).
  assert (forall x y, order_compare keys x y = Eq -> order_compare keys y x = Eq -> order_compare keys x c <> Gt -> order_compare keys y c <> Gt) as M1.
  { intros x y A B K. apply oc_trans with x; [rewrite B; discriminate|exact K]. }
  assert (forall x y, order_compare keys x y = Eq -> order_compare keys y x = Eq -> order_compare keys c x <> Gt -> order_compare keys c y <> Gt) as M2.
  { intros x y A B K. apply oc_trans with x; [exact K|rewrite A; discriminate]. }
  pose proof (M1 a b E E'). pose proof (M1 b a E' E). pose proof (M2 a b E E'). pose proof (M2 b a E' E).
  rewrite (oc_anti keys a c), (oc_anti keys b c) in *.
  destruct (order_compare keys a c), (order_compare keys b c); cbn in *; try reflexivity; exfalso;
    repeat match goal with H : _ -> _ |- _ => first [specialize (H ltac:(discriminate))|clear H] end; congruence.
Qed.
Lemma differ_iff keys a b : differ keys a b = false <-> order_compare keys a b = Eq.
Proof. unfold differ, row_compare. rewrite key_order. destruct (order_compare keys a b); split; congruence. Qed.

Definition ordered (keys : okeys) (p : list row) : Prop :=
  forall j k a b, (j <= k)%nat -> nth_error p j = Some a -> nth_error p k = Some b -> order_compare keys a b <> Gt.
Lemma in_order_nth keys p : in_order keys p -> ordered keys p.
Proof.
  intros K. induction K as [|x l K IH F]; intros j k a b L A B.
  - destruct j; discriminate.
  - destruct j as [|j].
    + injection A as <-. destruct k as [|k].
      * injection B as <-. rewrite oc_refl. discriminate.
      * rewrite Forall_forall in F. apply F. eapply nth_error_In. exact B.
    + destruct k as [|k]; [lia|]. apply (IH j k a b); [lia|exact A|exact B].
Qed.

(* ---- predicates that hold on a prefix ---- *)
Lemma prefix_count {A} (P : A -> bool) l :
  (forall j k a b, (j <= k)%nat -> nth_error l j = Some a -> nth_error l k = Some b -> P b = true -> P a = true) ->
  forall j a, nth_error l j = Some a -> P a = (j <? length (filter P l))%nat.
Proof.
  induction l as [|x l IH]; intros M j a E; [destruct j; discriminate|].
  cbn [filter]. destruct (P x) eqn:Px.
  - destruct j as [|j]; [injection E as <-; now rewrite Px|].
    cbn [length]. rewrite (IH ltac:(intros j' k' a' b' L A' B'; apply (M (S j') (S k')); [lia|exact A'|exact B']) j a E). reflexivity.
  - assert (forall k b, nth_error (x :: l) k = Some b -> P b = false) as N.
    { intros k b B. destruct (P b) eqn:Pb; [|reflexivity]. rewrite (M O k x b ltac:(lia) eq_refl B Pb) in Px. discriminate. }
    rewrite (N j a E). replace (filter P l) with (@nil A).
    + cbn [length]. symmetry. apply Nat.ltb_ge. lia.
    + symmetry. assert (forall y, In y l -> P y = false) as N'.
      { intros y Hy. apply In_nth_error in Hy. destruct Hy as (k & Hk). apply (N (S k) y Hk). }
      clear - N'. induction l as [|y l IH]; [reflexivity|]. cbn. rewrite (N' y (or_introl eq_refl)). apply IH. intros z Hz. apply N'. now right.
Qed.
Lemma filter_prefix {A} (P : A -> bool) l n : (forall j a, nth_error l j = Some a -> P a = (j <? n)%nat) -> filter P l = firstn n l.
Proof.
  revert n. induction l as [|x l IH]; intros n M; [now rewrite firstn_nil|].
  cbn [filter]. rewrite (M O x eq_refl). destruct n as [|n].
  - cbn. specialize (IH O). rewrite IH; [now destruct l|]. intros j a E. rewrite (M (S j) a E). reflexivity.
  - cbn. f_equal. apply IH. intros j a E. rewrite (M (S j) a E). reflexivity.
Qed.

Section Partition.
Variable keys : okeys.
Variable p : list row.
Hypothesis Ord : ordered keys p.

Definition lo (c : row) : nat := length (filter (precedes keys c) p).
Definition hi (c : row) : nat := length (filter (not_after keys c) p).
Lemma lo_spec c j r : nth_error p j = Some r -> precedes keys c r = (j <? lo c)%nat.
Proof.
  apply prefix_count. intros j' k a b L A B. unfold precedes.
  pose proof (Ord j' k a b L A B) as K. destruct (order_compare keys b c) eqn:E; try discriminate. intros _.
  assert (order_compare keys a c <> Gt) as N by (apply oc_trans with b; [exact K|rewrite E; discriminate]).
  destruct (order_compare keys a c) eqn:Ea; [|reflexivity|congruence].
  (* a ~ c > b contradicts a <= b *)
  exfalso. rewrite (oc_eq_l keys a c b Ea) in K. rewrite oc_anti, E in K. apply K. reflexivity.
Qed.
Lemma hi_spec c j r : nth_error p j = Some r -> not_after keys c r = (j <? hi c)%nat.
Proof.
  apply prefix_count. intros j' k a b L A B. unfold not_after.
  pose proof (Ord j' k a b L A B) as K. intros E.
  assert (order_compare keys a c <> Gt) as N.
  { apply oc_trans with b; [exact K|]. intros G. rewrite G in E. discriminate. }
  destruct (order_compare keys a c); congruence.
Qed.
Lemma hi_le c : (hi c <= length p)%nat.
Proof. unfold hi. clear Ord. induction p as [|x l IH]; [reflexivity|]. cbn [filter]. destruct (not_after keys c x); cbn [length]; lia. Qed.
Lemma lo_k k c : nth_error p k = Some c -> (lo c <= k)%nat.
Proof. intros E. pose proof (lo_spec c k c E) as K. unfold precedes in K. rewrite oc_refl in K. symmetry in K. now apply Nat.ltb_ge in K. Qed.
Lemma hi_k k c : nth_error p k = Some c -> (k < hi c)%nat.
Proof. intros E. pose proof (hi_spec c k c E) as K. unfold not_after in K. rewrite oc_refl in K. symmetry in K. now apply Nat.ltb_lt in K. Qed.
Lemma peer_iff c j r : nth_error p j = Some r -> order_compare keys c r = Eq <-> (lo c <= j < hi c)%nat.
Proof.
  intros E. pose proof (lo_spec c j r E) as A. pose proof (hi_spec c j r E) as B. unfold precedes, not_after in A, B.
  rewrite (oc_anti keys r c).
  destruct (order_compare keys r c); cbn [CompOpp]; symmetry in A, B; rewrite ?Nat.ltb_lt, ?Nat.ltb_ge in A, B;
    split; intros; first [discriminate|lia|reflexivity].
Qed.

(* ---- peers ---- *)
Lemma peers_bounds c l : 0 <= peers keys c l <= Z.of_nat (length l).
Proof. induction l as [|r l IH]; cbn [peers]; [cbn; lia|]. cbn [length]. destruct (differ keys c r); lia. Qed.
Lemma peers_in c l : forall j r, nth_error l j = Some r -> Z.of_nat j < peers keys c l -> order_compare keys c r = Eq.
Proof.
  induction l as [|x l IH]; intros j r E L; [destruct j; discriminate|]. cbn [peers] in L.
  destruct (differ keys c x) eqn:D; [lia|]. destruct j as [|j]; [injection E as <-; now apply differ_iff|]. apply (IH j r E). lia.
Qed.
Lemma peers_end c l : forall j r, nth_error l j = Some r -> Z.of_nat j = peers keys c l -> order_compare keys c r <> Eq.
Proof.
  induction l as [|x l IH]; intros j r E L; [destruct j; discriminate|]. cbn [peers] in L.
  destruct (differ keys c x) eqn:D.
  - destruct j as [|j]; [|lia]. injection E as <-. intros K. apply differ_iff in K. congruence.
  - destruct j as [|j]; [pose proof (peers_bounds c l); lia|]. apply (IH j r E). lia.
Qed.

Lemma nth_skip n j : nth_error (skipn n p) j = nth_error p (n + j).
Proof. clear Ord. revert n j. induction p as [|x l IH]; intros [|n] j; try reflexivity; [destruct j; reflexivity|]. cbn. apply IH. Qed.
Lemma nth_first n j : (j < n)%nat -> nth_error (firstn n p) j = nth_error p j.
Proof. clear Ord. revert n j. induction p as [|x l IH]; intros [|n] [|j] L; try reflexivity; try lia. cbn. apply IH. lia. Qed.
Lemma nth_rev (l : list row) : forall j, (j < length l)%nat -> nth_error (rev l) j = nth_error l (length l - 1 - j).
Proof.
  induction l as [|x l IH]; intros j L; [cbn in L; lia|]. cbn [rev length] in *.
  destruct (Nat.eq_dec j (length l)) as [->|N].
  - rewrite nth_error_app2 by (rewrite rev_length; lia). rewrite rev_length, Nat.sub_diag.
    replace (S (length l) - 1 - length l)%nat with O by lia. reflexivity.
  - rewrite nth_error_app1 by (rewrite rev_length; lia). rewrite IH by lia.
    replace (S (length l) - 1 - j)%nat with (S (length l - 1 - j))%nat by lia. reflexivity.
Qed.
Lemma nth_some {A} (l : list A) j : (j < length l)%nat -> exists r, nth_error l j = Some r.
Proof. intros L. destruct (nth_error l j) eqn:E; [eauto|]. apply nth_error_None in E. lia. Qed.

(* the rows from [a] on that are peers of [c] *)
Lemma peers_forward c a : (lo c <= a <= hi c)%nat -> Z.of_nat a + peers keys c (skipn a p) = Z.of_nat (hi c).
Proof.
  intros L. pose proof (peers_bounds c (skipn a p)) as B. rewrite skipn_length in B. pose proof (hi_le c) as H0.
  destruct (Z.lt_trichotomy (Z.of_nat a + peers keys c (skipn a p)) (Z.of_nat (hi c))) as [T|[T|T]]; [|exact T|]; exfalso.
  - set (q := Z.to_nat (peers keys c (skipn a p))) in *.
    destruct (nth_some p (a + q)) as (r & E); [lia|].
    apply (peers_end c (skipn a p) q r); [rewrite nth_skip; exact E|lia|]. apply (peer_iff c _ r E). lia.
  - destruct (nth_some p (hi c)) as (r & E); [lia|].
    assert (order_compare keys c r = Eq) as K.
    { apply (peers_in c (skipn a p) (hi c - a) r); [rewrite nth_skip; replace (a + (hi c - a))%nat with (hi c) by lia; exact E|lia]. }
    apply (peer_iff c _ r E) in K. lia.
Qed.
Lemma peers_backward c k : nth_error p k = Some c -> Z.of_nat k - peers keys c (rev (firstn k p)) = Z.of_nat (lo c).
Proof.
  intros E. pose proof (lo_k k c E) as L. pose proof (hi_k k c E) as U.
  assert (k < length p)%nat as Lk by (apply nth_error_Some; congruence).
  pose proof (peers_bounds c (rev (firstn k p))) as B. rewrite rev_length, firstn_length in B.
  assert (length (firstn k p) = k) as Lf by (rewrite firstn_length; lia).
  assert (forall j, (j < k)%nat -> nth_error (rev (firstn k p)) j = nth_error p (k - 1 - j)) as N.
  { intros j Hj. rewrite nth_rev by lia. rewrite Lf. apply nth_first. lia. }
  destruct (Z.lt_trichotomy (Z.of_nat k - peers keys c (rev (firstn k p))) (Z.of_nat (lo c))) as [T|[T|T]]; [|exact T|]; exfalso.
  - destruct (nth_some p (lo c - 1)) as (r & Er); [lia|].
    assert (order_compare keys c r = Eq) as K.
    { apply (peers_in c (rev (firstn k p)) (k - lo c) r); [rewrite N by lia; replace (k - 1 - (k - lo c))%nat with (lo c - 1)%nat by lia; exact Er|lia]. }
    apply (peer_iff c _ r Er) in K. lia.
  - set (q := Z.to_nat (peers keys c (rev (firstn k p)))) in *.
    destruct (nth_some p (k - 1 - q)) as (r & Er); [lia|].
    apply (peers_end c (rev (firstn k p)) q r); [rewrite N by lia; exact Er|lia|]. apply (peer_iff c _ r Er). lia.
Qed.

(* ---- frames ---- *)
Definition bounds_ok (fr : ftype * sql_bound * sql_bound) : Prop :=
  match fr with
  | (ft, a, b) => a <> UnboundedFollowing /\ b <> UnboundedPreceding /\
      (ft = FRange -> (forall n, a <> NPreceding n /\ a <> NFollowing n) /\ (forall n, b <> NPreceding n /\ b <> NFollowing n))
  end.
Definition small_nums (fr : ftype * sql_bound * sql_bound) : Prop := match fr with (_, a, b) => small_bound a p /\ small_bound b p end.

Lemma signed32 n : 0 <= n < 2 ^ 31 -> to_signed 32 n = n.
Proof.
  intros K. unfold to_signed. change (2 ^ 32) with 4294967296. change (2 ^ (32 - 1)) with 2147483648. change (2 ^ 31) with 2147483648 in K.
  rewrite Z.mod_small by lia. destruct (Z.ltb_spec n 2147483648); lia.
Qed.

Lemma frame_rows_between fr k c s e : nth_error p k = Some c -> (s <= length p)%nat -> (e <= length p)%nat ->
  (forall j r, nth_error p j = Some r -> in_frame fr keys k c j r = ((s <=? j)%nat && (j <? e)%nat)) ->
  frame_rows fr keys p k c = between p (Z.of_nat s) (Z.of_nat e).
Proof.
  intros E Hs He M. unfold frame_rows, numbered.
  rewrite (filter_interval (in_frame fr keys k c) p 0 s e M). unfold between. f_equal; [lia|]. now rewrite Nat2Z.id.
Qed.

(* where a row-frame begins and ends *)
Lemma row_frame a b fa fb k c : nth_error p k = Some c -> size p < 2 ^ 31 ->
  a <> UnboundedFollowing -> b <> UnboundedPreceding -> small_bound a p -> small_bound b p ->
  plan_bound a = Some fa -> plan_bound b = Some fb ->
  exists s e, row_start fa (Z.of_nat k) (size p) = Some (Z.of_nat s) /\ row_end fb (Z.of_nat k) (size p) = Some (Z.of_nat e) /\
    (s <= length p)%nat /\ (e <= length p)%nat /\
    forall j r, nth_error p j = Some r -> in_frame (FRows, a, b) keys k c j r = ((s <=? j)%nat && (j <? e)%nat).
Proof.
  intros E Hp Na Nb Sa Sb Pa Pb.
  assert (k < length p)%nat as Lk by (apply nth_error_Some; congruence).
  unfold size in *.
  assert (exists s, row_start fa (Z.of_nat k) (Z.of_nat (length p)) = Some (Z.of_nat s) /\ (s <= length p)%nat /\
    forall j, (j < length p)%nat -> from_row a (Z.of_nat k) (Z.of_nat j) = (s <=? j)%nat) as (s & S1 & S2 & S3).
  { destruct a as [|n| |n|]; cbn [plan_bound small_bound] in *; [| | | |congruence].
    - injection Pa as <-. exists O. split; [reflexivity|]. split; [lia|]. intros j _. cbn [from_row]. reflexivity.
    - rewrite signed32 in Pa by lia. destruct (Z.ltb_spec n 0); [lia|]. injection Pa as <-. unfold row_start. cbn [b_unbounded b_type b_num].
      exists (k - Z.to_nat n)%nat. destruct (Z.leb_spec n (Z.of_nat k)); (split; [f_equal; lia|]; split; [lia|]); intros j Lj; cbn [from_row];
        destruct (Nat.leb_spec (k - Z.to_nat n) j); lia.
    - injection Pa as <-. exists k. split; [reflexivity|]. split; [lia|]. intros j Lj. cbn [from_row]. destruct (Nat.leb_spec k j); lia.
    - rewrite signed32 in Pa by lia. destruct (Z.ltb_spec n 0); [lia|]. injection Pa as <-. unfold row_start. cbn [b_unbounded b_type b_num].
      destruct (Z.leb_spec (2 ^ 31) (Z.of_nat k + n)); [lia|].
      exists (Nat.min (k + Z.to_nat n) (length p))%nat. destruct (Z.ltb_spec (Z.of_nat k + n) (Z.of_nat (length p))); (split; [f_equal; lia|]; split; [lia|]); intros j Lj; cbn [from_row];
        destruct (Nat.leb_spec (Nat.min (k + Z.to_nat n) (length p)) j); lia. }
  assert (exists e, row_end fb (Z.of_nat k) (Z.of_nat (length p)) = Some (Z.of_nat e) /\ (e <= length p)%nat /\
    forall j, (j < length p)%nat -> to_row b (Z.of_nat k) (Z.of_nat j) = (j <? e)%nat) as (e & E1 & E2 & E3).
  { destruct b as [|n| |n|]; cbn [plan_bound small_bound] in *; [congruence| | | |].
    - rewrite signed32 in Pb by lia. destruct (Z.ltb_spec n 0); [lia|]. injection Pb as <-. unfold row_end. cbn [b_unbounded b_type b_num].
      exists (k + 1 - Z.to_nat n)%nat. destruct (Z.leb_spec n (Z.of_nat k)); (split; [f_equal; lia|]; split; [lia|]); intros j Lj; cbn [to_row];
        destruct (Nat.ltb_spec j (k + 1 - Z.to_nat n)); lia.
    - injection Pb as <-. exists (k + 1)%nat. split; [unfold row_end; cbn; f_equal; lia|]. split; [lia|]. intros j Lj. cbn [to_row]. destruct (Nat.ltb_spec j (k + 1)); lia.
    - rewrite signed32 in Pb by lia. destruct (Z.ltb_spec n 0); [lia|]. injection Pb as <-. unfold row_end. cbn [b_unbounded b_type b_num].
      destruct (Z.leb_spec (2 ^ 31) (Z.of_nat k + n)); [lia|].
      exists (Nat.min (k + Z.to_nat n + 1) (length p))%nat. destruct (Z.ltb_spec (Z.of_nat k + n) (Z.of_nat (length p))); (split; [f_equal; lia|]; split; [lia|]); intros j Lj; cbn [to_row];
        destruct (Nat.ltb_spec j (Nat.min (k + Z.to_nat n + 1) (length p))); lia.
    - injection Pb as <-. exists (length p). split; [reflexivity|]. split; [lia|]. intros j Lj. cbn [to_row]. symmetry. now apply Nat.ltb_lt. }
  exists s, e. repeat (split; [assumption|]). intros j r Er.
  assert (j < length p)%nat as Lj by (apply nth_error_Some; congruence).
  cbn [in_frame]. now rewrite S3, E3.
Qed.
Lemma range_frame a b fa fb k c : nth_error p k = Some c ->
  a = UnboundedPreceding \/ a = CurrentRow -> b = CurrentRow \/ b = UnboundedFollowing ->
  plan_bound a = Some fa -> plan_bound b = Some fb ->
  exists s e, range_start keys fa (Z.of_nat k) p = Some (Z.of_nat s) /\ range_end keys fb (Z.of_nat k) p = Some (Z.of_nat e) /\
    (s <= k)%nat /\ (k < e)%nat /\ (e <= length p)%nat /\
    forall j r, nth_error p j = Some r -> in_frame (FRange, a, b) keys k c j r = ((s <=? j)%nat && (j <? e)%nat).
Proof.
  intros E Ha Hb Pa Pb.
  assert (k < length p)%nat as Lk by (apply nth_error_Some; congruence).
  assert (exists s, range_start keys fa (Z.of_nat k) p = Some (Z.of_nat s) /\ (s <= k)%nat /\
    forall j r, nth_error p j = Some r -> from_peer a keys c r = (s <=? j)%nat) as (s & S1 & S2 & S3).
  { destruct Ha as [-> | ->]; injection Pa as <-; unfold range_start; cbn [b_unbounded b_type].
    - exists O. split; [reflexivity|]. split; [lia|]. reflexivity.
    - rewrite Nat2Z.id, E. exists (lo c). rewrite (peers_backward c k E). split; [reflexivity|]. split; [apply (lo_k k c E)|].
      intros j r Er. cbn [from_peer]. pose proof (lo_spec c j r Er) as K. unfold precedes in K.
      destruct (order_compare keys r c); symmetry in K; rewrite ?Nat.ltb_lt, ?Nat.ltb_ge in K; symmetry; rewrite ?Nat.leb_le, ?Nat.leb_gt; lia. }
  assert (exists e, range_end keys fb (Z.of_nat k) p = Some (Z.of_nat e) /\ (k < e)%nat /\ (e <= length p)%nat /\
    forall j r, nth_error p j = Some r -> to_peer b keys c r = (j <? e)%nat) as (e & E1 & E2 & E3 & E4).
  { destruct Hb as [-> | ->]; injection Pb as <-; unfold range_end; cbn [b_unbounded b_type].
    - rewrite Nat2Z.id, E. exists (hi c).
      pose proof (hi_k k c E) as K1. pose proof (lo_k k c E) as K0.
      pose proof (peers_forward c (k + 1) ltac:(lia)) as K.
      replace (Z.to_nat (Z.of_nat k + 1)) with (k + 1)%nat by lia. split; [f_equal; lia|]. split; [exact K1|]. split; [apply hi_le|].
      intros j r Er. cbn [to_peer]. apply (hi_spec c j r Er).
    - exists (length p). split; [reflexivity|]. split; [lia|]. split; [lia|]. intros j r Er. cbn [to_peer]. symmetry. apply Nat.ltb_lt.
      apply nth_error_Some. congruence. }
  exists s, e. repeat (split; [assumption|]). intros j r Er. cbn [in_frame]. now rewrite (S3 j r Er), (E4 j r Er).
Qed.

Lemma mode_frame fr m k c : nth_error p k = Some c -> size p < 2 ^ 31 -> bounds_ok fr -> small_nums fr -> mode_of (Some fr) = Some m ->
  exists s e, frame_at keys m p (Z.of_nat k) = Some (Z.of_nat s, Z.of_nat e) /\ (s <= length p)%nat /\ (e <= length p)%nat /\
    frame_rows fr keys p k c = between p (Z.of_nat s) (Z.of_nat e).
Proof.
  intros E Hp Bo Sm M. destruct fr as ((ft, a), b). cbn [bounds_ok small_nums] in *. destruct Bo as (Na & Nb & Ra). destruct Sm as (Sa & Sb).
  assert ((a = UnboundedPreceding /\ b = UnboundedFollowing) \/
          exists fa fb, plan_bound a = Some fa /\ plan_bound b = Some fb /\ m = match ft with FRows => RowFrame fa fb | FRange => RangeFrame fa fb end) as [(-> & ->)|(fa & fb & Pa & Pb & ->)].
  { unfold mode_of in M. destruct (plan_bound a) as [fa|] eqn:X, (plan_bound b) as [fb|] eqn:Y.
    - assert ((a = UnboundedPreceding /\ b = UnboundedFollowing) \/
              Some (match ft with FRows => RowFrame fa fb | FRange => RangeFrame fa fb end) = Some m) as [K|K].
      { destruct a, b; auto. }
      + auto.
      + right. injection K as <-. exists fa, fb. auto.
    - destruct a, b; auto; discriminate.
    - destruct a, b; auto; discriminate.
    - destruct a, b; auto; discriminate. }
  - cbn in M. injection M as <-. cbn [frame_at].
    exists O, (length p). split; [reflexivity|]. split; [lia|]. split; [lia|].
    apply (frame_rows_between _ k c O (length p) E); [lia|lia|]. intros j r Er.
    assert (j < length p)%nat as Lj by (apply nth_error_Some; congruence).
    destruct ft; cbn; symmetry; apply Nat.ltb_lt; exact Lj.
  - destruct ft.
    + destruct (row_frame a b fa fb k c E Hp Na Nb Sa Sb Pa Pb) as (s & e & E1 & E2 & L1 & L2 & K).
      exists s, e. cbn [frame_at]. rewrite E1, E2. split; [reflexivity|]. split; [exact L1|]. split; [exact L2|].
      apply (frame_rows_between _ k c s e E L1 L2 K).
    + destruct (Ra eq_refl) as (Ra1 & Ra2).
      destruct (range_frame a b fa fb k c E) as (s & e & E1 & E2 & L1 & L2 & L3 & K); try assumption.
      { destruct a as [|n| |n|]; auto; exfalso; first [now apply (proj1 (Ra1 n))|now apply (proj2 (Ra1 n))|congruence]. }
      { destruct b as [|n| |n|]; auto; exfalso; first [now apply (proj1 (Ra2 n))|now apply (proj2 (Ra2 n))|congruence]. }
      assert (k < length p)%nat as Lk by (apply nth_error_Some; congruence).
      exists s, e. cbn [frame_at]. rewrite E1, E2. split; [reflexivity|]. split; [lia|]. split; [lia|].
      apply (frame_rows_between _ k c s e E); [lia|lia|exact K].
Qed.
End Partition.
