(* Proofs: the functions that count rows of the partition. *)
From Coq Require Import List ZArith Bool Lia Sorting.Sorted.
From Verif Require Import Common.Bytes Key.Model Key.Spec Agg.Model Agg.Spec Agg.Lists Window.Model Window.Spec Window.Fn Window.Order.
Import ListNotations.
Local Open Scope Z_scope.

Lemma filter_comm {A} (P Q : A -> bool) l : filter P (filter Q l) = filter Q (filter P l).
Proof.
  induction l as [|x l IH]; [reflexivity|]. cbn [filter].
  destruct (P x) eqn:X, (Q x) eqn:Y; cbn [filter]; rewrite ?X, ?Y; congruence.
Qed.
Lemma filter_map_length {A B} (f : A -> B) (P : B -> bool) l : length (filter P (map f l)) = length (filter (fun x => P (f x)) l).
Proof. induction l as [|x l IH]; [reflexivity|]. cbn [map filter]. destruct (P (f x)); cbn [length]; congruence. Qed.
Lemma firstn_snoc {A} (l : list A) k c : nth_error l k = Some c -> firstn (S k) l = firstn k l ++ [c].
Proof.
  revert l. induction k as [|k IH]; intros [|x l] E; try discriminate.
  - injection E as ->. reflexivity.
  - cbn [firstn app]. f_equal. apply IH. exact E.
Qed.

Lemma some_keys {A B} (l : list A) (x y : B) : l <> [] -> match l with [] => x | _ => y end = y.
Proof. destruct l; congruence. Qed.

Section Partition.
Variable keys : okeys.
Variable p : list row.
Hypothesis Ord : ordered keys p.
Notation lo := (lo keys p).
Notation hi := (hi keys p).

Lemma lo_same a b : order_compare keys a b = Eq -> lo a = lo b.
Proof.
  intros E. unfold Order.lo. f_equal. apply filter_ext. intros r. unfold precedes.
  rewrite (oc_anti keys a r), (oc_anti keys b r). now rewrite (oc_eq_l keys a b r E).
Qed.
Lemma hi_same a b : order_compare keys a b = Eq -> hi a = hi b.
Proof.
  intros E. unfold Order.hi. f_equal. apply filter_ext. intros r. unfold not_after.
  rewrite (oc_anti keys a r), (oc_anti keys b r). now rewrite (oc_eq_l keys a b r E).
Qed.
Lemma lo_next k a b : nth_error p k = Some a -> nth_error p (S k) = Some b -> order_compare keys a b <> Eq -> lo b = S k.
Proof.
  intros A B N. pose proof (lo_k keys p Ord (S k) b B) as L.
  pose proof (Ord k (S k) a b ltac:(lia) A B) as O.
  pose proof (lo_spec keys p Ord b k a A) as K. unfold precedes in K.
  destruct (order_compare keys a b); try congruence. symmetry in K. apply Nat.ltb_lt in K. lia.
Qed.
Lemma hi_next k a b : nth_error p k = Some a -> nth_error p (S k) = Some b -> order_compare keys a b <> Eq -> hi a = S k.
Proof.
  intros A B N. pose proof (hi_k keys p Ord k a A) as L.
  pose proof (Ord k (S k) a b ltac:(lia) A B) as O.
  pose proof (hi_spec keys p Ord a (S k) b B) as K. unfold not_after in K. rewrite (oc_anti keys a b) in K.
  destruct (order_compare keys a b); cbn [CompOpp] in K; try congruence. symmetry in K. apply Nat.ltb_ge in K. lia.
Qed.
Lemma lo_first c : nth_error p 0 = Some c -> lo c = O.
Proof. intros E. pose proof (lo_k keys p Ord 0 c E). lia. Qed.
Lemma rank_lo c : rank_of keys p c = 1 + Z.of_nat (lo c).
Proof. reflexivity. Qed.

(* ---- dense ranks ---- *)
Definition first_peer (x : nat * row) : bool :=
  forallb (fun y => negb ((fst y <? fst x)%nat && match order_compare keys (snd y) (snd x) with Eq => true | _ => false end)) (numbered p).
Definition firsts (k : nat) : nat := length (filter first_peer (firstn k (numbered p))).

Lemma numbered_nth k c : nth_error p k = Some c -> nth_error (numbered p) k = Some (k, c).
Proof.
  clear Ord. unfold numbered. change k with (0 + k)%nat at 3. generalize O. revert k. induction p as [|x l IH]; intros [|k] a E; try discriminate.
  - injection E as ->. cbn. f_equal. f_equal. lia.
  - cbn [length seq combine nth_error]. rewrite (IH k (S a) E). f_equal. f_equal. lia.
Qed.
Lemma numbered_inv k x : nth_error (numbered p) k = Some x -> fst x = k /\ nth_error p k = Some (snd x).
Proof.
  intros E. assert (k < length p)%nat as L.
  { assert (k < length (numbered p))%nat as L by (apply nth_error_Some; congruence). unfold numbered in L.
    rewrite combine_length, seq_length in L. lia. }
  destruct (nth_some p k L) as (c & Ec). rewrite (numbered_nth k c Ec) in E. injection E as <-. auto.
Qed.
Lemma first_peer_0 c : nth_error p 0 = Some c -> first_peer (O, c) = true.
Proof. intros _. unfold first_peer. apply forallb_forall. intros y _. cbn [fst]. reflexivity. Qed.
Lemma first_peer_next k a b : nth_error p k = Some a -> nth_error p (S k) = Some b -> first_peer (S k, b) = differ keys a b.
Proof.
  intros A B. unfold first_peer. destruct (differ keys a b) eqn:D.
  - apply forallb_forall. intros (j, r) Hy. cbn [fst snd]. apply In_nth_error in Hy. destruct Hy as (j' & Hj).
    apply numbered_inv in Hj. cbn [fst snd] in Hj. destruct Hj as (<- & Er).
    destruct (Nat.ltb_spec j (S k)); [|reflexivity]. cbn [andb].
    assert (order_compare keys a b <> Eq) as N by (intros E; apply differ_iff in E; congruence).
    pose proof (lo_next k a b A B N) as L. pose proof (lo_spec keys p Ord b j r Er) as K. unfold precedes in K.
    destruct (order_compare keys r b); try reflexivity. symmetry in K. apply Nat.ltb_ge in K. lia.
  - apply not_true_iff_false. rewrite forallb_forall. intros K.
    specialize (K (k, a) (nth_error_In _ _ (numbered_nth k a A))). cbn [fst snd] in K.
    apply differ_iff in D. rewrite D in K. destruct (Nat.ltb_spec k (S k)); [discriminate|lia].
Qed.
Lemma firsts_S k c : nth_error p k = Some c -> firsts (S k) = (firsts k + (if first_peer (k, c) then 1 else 0))%nat.
Proof.
  intros E. unfold firsts. rewrite (firstn_snoc _ _ _ (numbered_nth k c E)), filter_app, app_length. cbn [filter].
  destruct (first_peer (k, c)); reflexivity.
Qed.
Lemma dense_lo c : dense_rank_of keys p c = 1 + Z.of_nat (firsts (lo c)).
Proof.
  unfold dense_rank_of, first_peers, how_many. f_equal. f_equal. rewrite filter_map_length.
  change (fun x => forallb _ (numbered p)) with first_peer. rewrite filter_comm. unfold firsts. f_equal. f_equal.
  apply filter_prefix. intros j x E. apply numbered_inv in E. destruct E as (_ & E). apply (lo_spec keys p Ord c j (snd x) E).
Qed.
Lemma dense_next k a b : nth_error p k = Some a -> nth_error p (S k) = Some b ->
  dense_rank_of keys p b = if differ keys a b then dense_rank_of keys p a + 1 else dense_rank_of keys p a.
Proof.
  intros A B.
  assert (forall j c, nth_error p j = Some c -> firsts (S j) = S (firsts (lo c))) as T.
  { induction j as [|j IH]; intros c E.
    - rewrite (firsts_S _ _ E), (first_peer_0 _ E), (lo_first _ E). reflexivity.
    - destruct (nth_some p j) as (d & Ed); [assert (S j < length p)%nat by (apply nth_error_Some; congruence); lia|].
      rewrite (firsts_S _ _ E), (first_peer_next j d c Ed E). destruct (differ keys d c) eqn:D.
      + rewrite (lo_next j d c Ed E); [lia|]. intros K. apply differ_iff in K. congruence.
      + rewrite (IH d Ed). apply differ_iff in D. rewrite (lo_same d c D). lia. }
  rewrite !dense_lo. destruct (differ keys a b) eqn:D.
  - rewrite (lo_next k a b A B) by (intros K; apply differ_iff in K; congruence). rewrite (T k a A). lia.
  - apply differ_iff in D. now rewrite (lo_same a b D).
Qed.

(* ---- NTILE ---- *)
Definition ntile_at (q r k idx grp : Z) : Prop :=
  1 <= grp /\ 0 <= idx /\
  ((grp <= r /\ k = (grp - 1) * (q + 1) + idx /\ idx <= q) \/
   (r < grp /\ k = r * (q + 1) + (grp - 1 - r) * q + idx /\ (idx < q \/ (q = 0 /\ idx = 0)))).
Lemma ntile_bucket n len k idx grp : 0 < n -> 0 <= k < len -> ntile_at (len / n) (len mod n) k idx grp -> grp = bucket n len k.
Proof.
  intros Hn Hk (G & I0 & K). unfold bucket. cbv zeta.
  pose proof (Z.mod_pos_bound len n Hn) as Hr. pose proof (Z.div_mod len n ltac:(lia)) as Hd.
  assert (0 <= len / n) as Hq by (apply Z.div_pos; lia).
  set (q := len / n) in *. set (r := len mod n) in *. clearbody q r.
  destruct K as [(K1 & K2 & K3)|(K1 & K2 & K3)].
  - assert (k < r * (q + 1)) by nia. destruct (Z.ltb_spec k (r * (q + 1))); [|lia].
    rewrite <- (Z.div_unique k (q + 1) (grp - 1) idx); lia.
  - assert (r * (q + 1) <= k) by nia. destruct (Z.ltb_spec k (r * (q + 1))); [lia|].
    assert (0 < q) as Q by (destruct (Z.eq_dec q 0); [subst q; nia|lia]).
    rewrite <- (Z.div_unique (k - r * (q + 1)) q (grp - 1 - r) idx); lia.
Qed.
Lemma ntile_step q r k idx grp : 0 <= q -> 0 <= r -> ntile_at q r k idx grp -> (q = 0 -> k < r) ->
  let most := if grp <=? r then q + 1 else q in
  if idx + 1 =? most then ntile_at q r (k + 1) 0 (grp + 1) else ntile_at q r (k + 1) (idx + 1) grp.
Proof.
  intros Hq Hr (G & I0 & K) Z0. cbv zeta. destruct K as [(K1 & K2 & K3)|(K1 & K2 & K3)].
  - destruct (Z.leb_spec grp r); [|lia]. destruct (Z.eqb_spec (idx + 1) (q + 1)).
    + split; [lia|]. split; [lia|]. destruct (Z.le_gt_cases (grp + 1) r); [left; split; [lia|split; [nia|lia]]|right].
      assert (grp = r) by lia. subst grp. split; [lia|]. split; [nia|]. lia.
    + split; [lia|]. split; [lia|]. left. split; [lia|]. split; [nia|lia].
  - destruct (Z.leb_spec grp r); [lia|]. destruct K3 as [K3|(-> & ->)].
    + destruct (Z.eqb_spec (idx + 1) q); (split; [lia|]; split; [lia|]; right; split; [lia|]; split; [nia|lia]).
    + nia.
Qed.

(* ---- the state before row k ---- *)
Definition rank_inv (f : wfn) (k : nat) (b : option (list row)) (i : inter) : Prop :=
  match f, i with
  | WRowNumber, IRow n => n = Z.of_nat k
  | (WRank | WPercentRank), IRank idx last b' =>
      keys = [] \/ (idx = Z.of_nat k /\ b' = b /\ forall j c, k = S j -> nth_error p j = Some c -> last = rank_of keys p c)
  | WDenseRank, IRank idx last b' =>
      keys = [] \/ (idx = Z.of_nat k /\ b' = b /\ forall j c, k = S j -> nth_error p j = Some c -> last = dense_rank_of keys p c)
  | WCumeDist, IRank idx last b' =>
      keys = [] \/ (idx = Z.of_nat k /\ b' = b /\ (k = O -> last = 0) /\ forall j c, k = S j -> nth_error p j = Some c -> last = Z.of_nat (hi c))
  | WNtile n, INtile idx grp q r =>
      ntile_at (size p / n) (size p mod n) (Z.of_nat k) idx grp /\ (b = Some p -> q = size p / n /\ r = size p mod n)
  | (WLead _ _ _ | WLag _ _ _), ILead idx b' => idx = Z.of_nat k /\ b' = b
  | _, _ => False
  end.
Lemma rank_shaped f k b i : rank_inv f k b i -> shaped f i /\ frame_reset i = i.
Proof. destruct f, i; cbn; intros K; try destruct K; auto. Qed.
Lemma rank_start f : rank_like f = true -> small_fn f p -> p <> [] -> rank_inv f 0 None (initialize f).
Proof.
  intros R Sm Np. destruct f; try discriminate; cbn [initialize rank_inv]; auto.
  - right. split; [reflexivity|]. split; [reflexivity|]. intros; discriminate.
  - right. split; [reflexivity|]. split; [reflexivity|]. intros; discriminate.
  - right. split; [reflexivity|]. split; [reflexivity|]. intros; discriminate.
  - right. split; [reflexivity|]. split; [reflexivity|]. split; [reflexivity|]. intros; discriminate.
  - cbn [small_fn] in Sm. split; [|discriminate].
    pose proof (Z.mod_pos_bound (size p) n Sm). assert (0 <= size p / n) by (apply Z.div_pos; unfold size; lia).
    assert (0 < size p) by (unfold size; destruct p; [congruence|cbn; lia]).
    split; [lia|]. split; [lia|]. destruct (Z.le_gt_cases 1 (size p mod n)).
    + left. lia.
    + right. assert (size p mod n = 0) as -> by lia. lia.
Qed.
Lemma rank_call f k b i s e : rank_like f = true -> small_fn f p -> 0 <= s -> s < e -> e <= size p -> rank_inv f k b i ->
  exists i', call f i p s e = Some i' /\ rank_inv f k (Some p) i'.
Proof.
  intros R Sm Hs He Hl K.
  assert ((s <? 0) || (size p <=? s) || (e <=? 0) || (size p <? e) = false) as G.
  { rewrite !orb_false_iff. repeat split; lia. }
  unfold call. rewrite G. destruct f; try discriminate; destruct i; cbn [rank_inv] in K; try contradiction;
    try (eexists; split; [reflexivity|]; cbn [rank_inv]; intuition congruence).
  cbn [small_fn] in Sm. destruct (Z.leb_spec n 0); [lia|]. eexists. split; [reflexivity|]. cbn [rank_inv]. intuition.
Qed.

Lemma nokeys_rank c : keys = [] -> rank_of keys p c = 1.
Proof.
  intros ->. unfold rank_of, how_many. replace (filter (precedes [] c) p) with (@nil row); [reflexivity|].
  clear. induction p as [|x l IH]; [reflexivity|]. cbn. exact IH.
Qed.
Lemma nokeys_hi c : keys = [] -> hi c = length p.
Proof. intros ->. unfold Order.hi. f_equal. clear. induction p as [|x l IH]; [reflexivity|]. cbn. now rewrite IH at 1. Qed.

Lemma next_rank_ok (dense : bool) k last c : nth_error p k = Some c ->
  (forall j d, k = S j -> nth_error p j = Some d -> last = if dense then dense_rank_of keys p d else rank_of keys p d) ->
  next_rank keys dense (Z.of_nat k + 1) last (Some p) = Some (if dense then dense_rank_of keys p c else rank_of keys p c).
Proof.
  intros E K. unfold next_rank. destruct k as [|k].
  - cbn [Z.of_nat Z.add Z.eqb Pos.eqb]. f_equal. rewrite dense_lo, rank_lo, (lo_first c E). destruct dense; reflexivity.
  - destruct (Z.eqb_spec (Z.of_nat (S k) + 1) 1); [lia|].
    assert (S k < length p)%nat as L by (apply nth_error_Some; congruence).
    replace ((Z.of_nat (S k) + 1 <? 2) || (size p <? Z.of_nat (S k) + 1)) with false
      by (symmetry; rewrite orb_false_iff; unfold size; split; lia).
    destruct (nth_some p k ltac:(lia)) as (d & Ed).
    replace (Z.to_nat (Z.of_nat (S k) + 1 - 2)) with k by lia. replace (Z.to_nat (Z.of_nat (S k) + 1 - 1)) with (S k) by lia.
    rewrite Ed, E. f_equal. specialize (K k d eq_refl Ed). destruct dense.
    + rewrite (dense_next k d c Ed E). rewrite K. reflexivity.
    + rewrite !rank_lo in *. destruct (differ keys d c) eqn:D.
      * rewrite (lo_next k d c Ed E); [lia|]. intros X. apply differ_iff in X. congruence.
      * apply differ_iff in D. rewrite <- (lo_same d c D). exact K.
Qed.

Lemma rank_result f k i c fr : rank_like f = true -> small_fn f p -> size p < 2 ^ 31 -> nth_error p k = Some c -> rank_inv f k (Some p) i ->
  exists i' v, get_result keys f i = Some (i', v) /\ rank_inv f (S k) (Some p) i' /\ fn_spec keys p k c fr f v.
Proof.
  intros R Sm Hp E K. assert (k < length p)%nat as L by (apply nth_error_Some; congruence).
  destruct f; try discriminate; destruct i; cbn [rank_inv] in K; try contradiction.
  - (* ROW_NUMBER *) subst n. do 2 eexists. split; [reflexivity|]. cbn [rank_inv fn_spec]. split; [lia|reflexivity].
  - (* RANK *) cbn [get_result]. assert (keys = [] \/ keys <> []) as [Ek|Ek] by (destruct keys; [left|right]; congruence).
    + do 2 eexists. split; [rewrite Ek; reflexivity|]. split; [now left|]. cbn [fn_spec]. now rewrite nokeys_rank.
    + destruct K as [K|(-> & -> & K)]; [congruence|].
      rewrite (some_keys keys) by exact Ek. rewrite (next_rank_ok false k last c E K).
      do 2 eexists. split; [reflexivity|]. split; [|reflexivity]. cbn [rank_inv]. right. split; [lia|]. split; [reflexivity|].
      intros j d X Y. assert (j = k) by lia. subst j. rewrite E in Y. injection Y as <-. reflexivity.
  - (* DENSE_RANK *) cbn [get_result]. assert (keys = [] \/ keys <> []) as [Ek|Ek] by (destruct keys; [left|right]; congruence).
    + do 2 eexists. split; [rewrite Ek; reflexivity|]. split; [now left|]. cbn [fn_spec]. rewrite dense_lo. assert (lo c = O) as ->; [|reflexivity]. pose proof (nokeys_rank c Ek) as N. rewrite rank_lo in N. lia.
    + destruct K as [K|(-> & -> & K)]; [congruence|].
      rewrite (some_keys keys) by exact Ek. rewrite (next_rank_ok true k last c E K).
      do 2 eexists. split; [reflexivity|]. split; [|reflexivity]. cbn [rank_inv]. right. split; [lia|]. split; [reflexivity|].
      intros j d X Y. assert (j = k) by lia. subst j. rewrite E in Y. injection Y as <-. reflexivity.
  - (* PERCENT_RANK *) cbn [get_result]. assert (keys = [] \/ keys <> []) as [Ek|Ek] by (destruct keys; [left|right]; congruence).
    + do 2 eexists. split; [rewrite Ek; reflexivity|]. split; [now left|]. cbn [fn_spec].
      rewrite (nokeys_rank c Ek). exists 0, 1. split; [reflexivity|]. split; [lia|]. destruct (length p =? 1)%nat; lia.
    + destruct K as [K|(-> & -> & K)]; [congruence|].
      rewrite (some_keys keys) by exact Ek.
      destruct (Z.eqb_spec (size p) 0); [unfold size in *; lia|].
      rewrite (next_rank_ok false k last c E K).
      do 2 eexists. split; [reflexivity|]. split.
      * cbn [rank_inv]. right. split; [lia|]. split; [reflexivity|].
        intros j d X Y. assert (j = k) by lia. subst j. rewrite E in Y. injection Y as <-. reflexivity.
      * cbn [fn_spec]. unfold size in *. destruct (Nat.eqb_spec (length p) 1) as [L1|L1].
        -- rewrite L1. cbn [Z.of_nat Pos.of_succ_nat Z.eqb Pos.eqb]. exists 0, 1. split; [reflexivity|]. lia.
        -- destruct (Z.eqb_spec (Z.of_nat (length p)) 1); [lia|]. do 2 eexists. split; [reflexivity|]. split; [lia|reflexivity].
  - (* CUME_DIST *) cbn [get_result]. assert (keys = [] \/ keys <> []) as [Ek|Ek] by (destruct keys; [left|right]; congruence).
    + do 2 eexists. split; [rewrite Ek; reflexivity|]. split; [now left|]. cbn [fn_spec].
      exists 1, 1. split; [reflexivity|]. split; [lia|]. change (how_many (not_after keys c) p) with (Z.of_nat (hi c)). rewrite (nokeys_hi c Ek). lia.
    + destruct K as [K|(-> & -> & K0 & K)]; [congruence|].
      rewrite (some_keys keys) by exact Ek.
      assert (0 <= last /\ Z.of_nat (lo c) <= last <= Z.of_nat (hi c)) as (La & Lb).
      { pose proof (hi_k keys p Ord k c E). pose proof (lo_k keys p Ord k c E). destruct k as [|k].
        - rewrite (K0 eq_refl). lia.
        - destruct (nth_some p k ltac:(lia)) as (d & Ed). rewrite (K k d eq_refl Ed).
          destruct (differ keys d c) eqn:D.
          + rewrite (hi_next k d c Ed E) by (intros X; apply differ_iff in X; congruence). lia.
          + apply differ_iff in D. rewrite (hi_same d c D). lia. }
      replace ((Z.of_nat k <? 0) || (size p <=? Z.of_nat k) || (last <? 0)) with false
        by (symmetry; rewrite !orb_false_iff; unfold size; repeat split; lia).
      rewrite Nat2Z.id, E. cbv zeta.
      assert (last + peers keys c (skipn (Z.to_nat last) p) = Z.of_nat (hi c)) as ->.
      { pose proof (peers_forward keys p Ord c (Z.to_nat last) ltac:(lia)). lia. }
      do 2 eexists. split; [reflexivity|]. split.
      * cbn [rank_inv]. right. split; [lia|]. split; [reflexivity|]. split; [discriminate|].
        intros j d X Y. assert (j = k) by lia. subst j. rewrite E in Y. injection Y as <-. reflexivity.
      * cbn [fn_spec]. exists (Z.of_nat (hi c)), (size p). split; [reflexivity|]. split; [unfold size; lia|]. reflexivity.
  - (* NTILE *) destruct K as (K & Kb). destruct (Kb eq_refl) as (-> & ->). cbn [small_fn] in Sm.
    pose proof (Z.mod_pos_bound (size p) n Sm) as Hr. assert (0 <= size p / n) as Hq by (apply Z.div_pos; unfold size; lia).
    pose proof (ntile_step _ _ _ _ _ Hq (proj1 Hr) K) as St. cbv zeta in St.
    cbn [get_result]. cbv zeta. do 2 eexists. split; [reflexivity|]. split.
    + specialize (St ltac:(intros Q; pose proof (Z.div_mod (size p) n ltac:(lia)); unfold size in *; nia)).
      replace (Z.of_nat (S k)) with (Z.of_nat k + 1) by lia.
      destruct (idx + 1 =? _); cbn [rank_inv]; replace (Z.of_nat (S k)) with (Z.of_nat k + 1) by lia; (split; [exact St|auto]).
    + cbn [fn_spec]. rewrite (ntile_bucket n (size p) (Z.of_nat k) idx grp Sm ltac:(unfold size; lia) K). reflexivity.
  - (* LEAD *) destruct K as (-> & ->). cbn [small_fn] in Sm. destruct Sm as (S1 & S2). cbn [get_result]. unfold size in *.
    destruct (Z.leb_spec (2 ^ 63) (Z.of_nat k + offset)); [lia|].
    cbv zeta. unfold at_row. cbn [fn_spec]. unfold value_at.
    destruct (Z.leb_spec 0 (Z.of_nat k + offset)); [|lia]. destruct (Z.ltb_spec (Z.of_nat k + offset) 0); [lia|]. cbn [andb].
    destruct (Z.ltb_spec (Z.of_nat k + offset) (Z.of_nat (length p))).
    + destruct (nth_some p (Z.to_nat (Z.of_nat k + offset)) ltac:(lia)) as (r & Er). rewrite Er.
      do 2 eexists. split; [reflexivity|]. split; [cbn [rank_inv]; split; [lia|reflexivity]|reflexivity].
    + replace (nth_error p (Z.to_nat (Z.of_nat k + offset))) with (@None row) by (symmetry; apply nth_error_None; lia).
      destruct dflt as [d|].
      * destruct (Z.ltb_spec (Z.of_nat k) 0); [lia|]. rewrite Nat2Z.id, E.
        do 2 eexists. split; [reflexivity|]. split; [cbn [rank_inv]; split; [lia|reflexivity]|reflexivity].
      * do 2 eexists. split; [reflexivity|]. split; [cbn [rank_inv]; split; [lia|reflexivity]|reflexivity].
  - (* LAG *) destruct K as (-> & ->). cbn [small_fn] in Sm. cbn [get_result]. unfold size in *.
    cbv zeta. unfold at_row. cbn [fn_spec]. unfold value_at.
    destruct (Z.leb_spec 0 (Z.of_nat k - offset)), (Z.ltb_spec (Z.of_nat k - offset) 0); try lia; cbn [andb].
    + destruct (Z.ltb_spec (Z.of_nat k - offset) (Z.of_nat (length p))); [|lia].
      destruct (nth_some p (Z.to_nat (Z.of_nat k - offset)) ltac:(lia)) as (r & Er). rewrite Er.
      do 2 eexists. split; [reflexivity|]. split; [cbn [rank_inv]; split; [lia|reflexivity]|reflexivity].
    + destruct dflt as [d|].
      * destruct (Z.ltb_spec (Z.of_nat k) 0); [lia|]. rewrite Nat2Z.id, E.
        do 2 eexists. split; [reflexivity|]. split; [cbn [rank_inv]; split; [lia|reflexivity]|reflexivity].
      * do 2 eexists. split; [reflexivity|]. split; [cbn [rank_inv]; split; [lia|reflexivity]|reflexivity].
Qed.
End Partition.
