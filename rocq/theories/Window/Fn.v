(* Proofs: aggregates and value functions over a frame. *)
From Coq Require Import List ZArith Bool Lia Sorting.Sorted.
From Verif Require Import Common.Bytes Key.Model Key.Spec Agg.Model Agg.Spec Agg.Lists Window.Model Window.Spec.
Import ListNotations.
Local Open Scope Z_scope.

Definition shaped (f : wfn) (i : inter) : Prop :=
  match f, i with
  | (WCountStar | WCount _), ICount _ => True
  | WSum _, ISum _ => True
  | WAvg _, IAvg _ _ => True
  | (WMin _ _ | WMax _ _), IMinMax _ => True
  | WRowNumber, IRow _ => True
  | (WRank | WDenseRank | WPercentRank | WCumeDist), IRank _ _ _ => True
  | WNtile _, INtile _ _ _ _ => True
  | (WLead _ _ _ | WLag _ _ _), ILead _ _ => True
  | (WFirst _ | WLast _ | WNth _ _), IVal _ => True
  | _, _ => False
  end.
Lemma shaped_init f : shaped f (initialize f).
Proof. destruct f; exact Logic.I. Qed.
Lemma reset_init f i : shaped f i -> partition_reset i = initialize f.
Proof. destruct f, i; cbn; intros K; try destruct K; reflexivity. Qed.
Lemma frame_init f i : rank_like f = false -> shaped f i -> frame_reset i = initialize f.
Proof. destruct f, i; cbn; intros R K; try discriminate; try destruct K; reflexivity. Qed.

(* ---- sums ---- *)
Lemma abs_sum_nonneg l : 0 <= abs_sum l.
Proof. unfold abs_sum. induction l as [|z l IH]; cbn [map zsum fold_right]; [lia|]. unfold zsum in IH. lia. Qed.
Lemma abs_sum_app a b : abs_sum (a ++ b) = abs_sum a + abs_sum b.
Proof. unfold abs_sum, zsum. induction a as [|z a IH]; cbn [map app fold_right]; [lia|]. lia. Qed.
Lemma abs_cons z l : abs_sum (z :: l) = Z.abs z + abs_sum l.
Proof. reflexivity. Qed.
Lemma zsum_cons z l : zsum (z :: l) = z + zsum l.
Proof. reflexivity. Qed.
Lemma signed_id z : Z.abs z < 2 ^ 63 -> to_signed 64 z = z.
Proof.
  intros K. unfold to_signed. change (2 ^ 64) with 18446744073709551616 in *. change (2 ^ (64 - 1)) with 9223372036854775808 in *.
  change (2 ^ 63) with 9223372036854775808 in *.
  destruct (Z.ltb_spec (z mod 18446744073709551616) 9223372036854775808) as [L|L]; Z.div_mod_to_equations; lia.
Qed.
Lemma sadd_ok x y : Z.abs (x + y) < 2 ^ 63 -> sadd64 x y = Some (x + y).
Proof.
  intros K. unfold sadd64.
  replace ((- 2 ^ 63 <=? x + y) && (x + y <? 2 ^ 63)) with true; [reflexivity|].
  symmetry. apply andb_true_iff. split; lia.
Qed.
Lemma sum_some e rs : forall x, Z.abs x + abs_sum (nonnull e rs) < 2 ^ 63 -> sum_rows e (Some x) rs = Some (Some (x + zsum (nonnull e rs))).
Proof.
  induction rs as [|r rs IH]; intros x K; cbn [sum_rows].
  - cbn [nonnull flat_map]. cbn [zsum fold_right]. now rewrite Z.add_0_r.
  - rewrite nonnull_cons in K |- *. destruct (e r) as [z|]; [|apply IH; exact K].
    rewrite abs_cons in K. rewrite zsum_cons. pose proof (abs_sum_nonneg (nonnull e rs)).
    rewrite signed_id by lia. rewrite sadd_ok by lia. rewrite IH by lia. do 2 f_equal. lia.
Qed.
Lemma sum_none e rs : abs_sum (nonnull e rs) < 2 ^ 63 ->
  sum_rows e None rs = Some (match nonnull e rs with [] => None | l => Some (zsum l) end).
Proof.
  induction rs as [|r rs IH]; intros K; cbn [sum_rows]; [reflexivity|].
  rewrite nonnull_cons in K |- *. destruct (e r) as [z|]; [|apply IH; exact K].
  rewrite abs_cons in K. pose proof (abs_sum_nonneg (nonnull e rs)).
  rewrite signed_id by lia. rewrite sum_some by lia. reflexivity.
Qed.
Lemma avg_ok e rs : forall s c, Z.abs s + abs_sum (nonnull e rs) <= 2 ^ 53 ->
  avg_rows e s c rs = Some (s + zsum (nonnull e rs), c + Z.of_nat (length (nonnull e rs))).
Proof.
  induction rs as [|r rs IH]; intros s c K; cbn [avg_rows].
  - cbn [nonnull flat_map length]. cbn [zsum fold_right]. do 2 f_equal; lia.
  - rewrite nonnull_cons in K |- *. destruct (e r) as [z|]; [|apply IH; exact K].
    rewrite abs_cons in K. rewrite zsum_cons. pose proof (abs_sum_nonneg (nonnull e rs)).
    unfold dadd. destruct (Z.leb_spec (Z.abs (s + z)) (2 ^ 53)); [|lia].
    rewrite IH by lia. cbn [length]. do 2 f_equal; lia.
Qed.

Lemma count_ok es rs : forall c, count_rows es c rs =
  c + how_many (fun r => forallb (fun e : expr => match e r with None => false | _ => true end) es) rs.
Proof.
  unfold count_rows, how_many. induction rs as [|r rs IH]; intros c; cbn [fold_left filter]; [cbn; lia|].
  rewrite IH. destruct (forallb _ es); cbn [length]; lia.
Qed.

(* ---- MIN and MAX ---- *)
Lemma extreme_some up t e rs : forall m seen,
  extspec up t seen (Some (AV m)) ->
  exists w, extreme_rows up t e (Some m) rs = Some w /\ extspec up t (rev (nonnull e rs) ++ seen) (Some (AV w)).
Proof.
  induction rs as [|r rs IH]; intros m seen K; cbn [extreme_rows].
  - exists m. split; [reflexivity|]. exact K.
  - rewrite nonnull_cons. destruct (e r) as [v|]; [|apply IH; exact K].
    cbn [rev]. rewrite <- app_assoc. cbn [app].
    pose proof (extspec_cons up t seen v _ K) as K'. unfold better in K'.
    destruct (value_compare t m v), up; apply IH; exact K'.
Qed.
Lemma ext_rev up t l v : extspec up t (rev l) v -> extspec up t l v.
Proof. apply extspec_perm. apply Permutation.Permutation_sym, Permutation.Permutation_rev. Qed.
Lemma extreme_none up t e rs : extspec up t (nonnull e rs) (option_map AV (extreme_rows up t e None rs)).
Proof.
  induction rs as [|r rs IH]; cbn [extreme_rows]; [reflexivity|].
  rewrite nonnull_cons. destruct (e r) as [v|]; [|exact IH].
  destruct (extreme_some up t e rs v [v] (extspec_one up t v)) as (w & -> & K).
  cbn [option_map]. apply ext_rev. exact K.
Qed.

(* ---- frames are intervals ---- *)
Lemma filter_interval (P : nat -> row -> bool) p : forall k s e,
  (forall j r, nth_error p j = Some r -> P (k + j)%nat r = ((s <=? j)%nat && (j <? e)%nat)) ->
  map snd (filter (fun x => P (fst x) (snd x)) (combine (seq k (length p)) p)) = firstn (e - s) (skipn s p).
Proof.
  induction p as [|r p IH]; intros k s e K.
  - now rewrite skipn_nil, firstn_nil.
  - cbn [length seq combine filter fst snd].
    pose proof (K O r eq_refl) as K0. rewrite Nat.add_0_r in K0.
    assert (forall s' e', (forall j, ((S s' <=? S j)%nat && (S j <? S e')%nat) = ((s' <=? j)%nat && (j <? e')%nat)) ) as SS by reflexivity.
    destruct s as [|s].
    + destruct e as [|e].
      * rewrite K0. cbn [Nat.leb Nat.ltb andb].
        rewrite (IH (S k) O O); [reflexivity|]. intros j x Hj. specialize (K (S j) x Hj).
        rewrite <- plus_n_Sm in K. cbn [Nat.add]. rewrite K. reflexivity.
      * rewrite K0. cbn [Nat.leb Nat.ltb andb map snd]. cbn [Nat.sub skipn firstn].
        f_equal. rewrite (IH (S k) O e); [now rewrite Nat.sub_0_r|].
        intros j x Hj. specialize (K (S j) x Hj). rewrite <- plus_n_Sm in K. cbn [Nat.add]. rewrite K. reflexivity.
    + destruct e as [|e].
      * rewrite K0. cbn [Nat.leb Nat.ltb andb]. rewrite (IH (S k) O O); [reflexivity|].
        intros j x Hj. specialize (K (S j) x Hj). rewrite <- plus_n_Sm in K. cbn [Nat.add]. rewrite K.
        apply andb_false_r.
      * rewrite K0. cbn [Nat.leb Nat.ltb andb skipn Nat.sub]. apply IH.
        intros j x Hj. specialize (K (S j) x Hj). rewrite <- plus_n_Sm in K. cbn [Nat.add]. rewrite K. reflexivity.
Qed.
Lemma between_all p : between p 0 (size p) = p.
Proof. unfold between, size. rewrite Z.sub_0_r, Nat2Z.id. apply firstn_all. Qed.
Lemma between_none p s e : e <= s -> between p s e = [].
Proof. intros K. unfold between. replace (Z.to_nat (e - s)) with O by lia. reflexivity. Qed.
Lemma between_length p s e : 0 <= s -> s <= e -> e <= size p -> Z.of_nat (length (between p s e)) = e - s.
Proof. unfold between, size. intros. rewrite firstn_length, skipn_length. lia. Qed.
Lemma between_nth p s e j : 0 <= s -> 0 <= j -> s + j < e -> nth_error (between p s e) (Z.to_nat j) = nth_error p (Z.to_nat (s + j)).
Proof.
  intros Hs Hj He. unfold between.
  assert (forall (l : list row) n k, (k < n)%nat -> nth_error (firstn n l) k = nth_error l k) as F.
  { induction l as [|x l IH]; intros [|n] [|k] L; try reflexivity; try lia. cbn. apply IH. lia. }
  rewrite F by lia. clear F.
  assert (forall (l : list row) n k, nth_error (skipn n l) k = nth_error l (n + k)) as F.
  { induction l as [|x l IH]; intros [|n] k; try reflexivity; [destruct k; reflexivity|]. cbn. apply IH. }
  rewrite F. f_equal. lia.
Qed.
Lemma between_split p s e : exists a c, p = a ++ between p s e ++ c.
Proof.
  exists (firstn (Z.to_nat s) p), (skipn (Z.to_nat (e - s)) (skipn (Z.to_nat s) p)). unfold between.
  now rewrite firstn_skipn, firstn_skipn.
Qed.
Lemma abs_between e p s t : abs_sum (nonnull e (between p s t)) <= abs_sum (nonnull e p).
Proof.
  destruct (between_split p s t) as (a & c & E). rewrite E at 2. rewrite !nonnull_app, !abs_sum_app.
  pose proof (abs_sum_nonneg (nonnull e a)). pose proof (abs_sum_nonneg (nonnull e c)). lia.
Qed.

(* ---- a function over an interval ---- *)
Lemma call_value keys p f s e i c : rank_like f = false -> small_fn f p -> size p < 2 ^ 31 -> 0 <= s -> s < e -> e <= size p ->
  exists x v, call f (initialize f) p s e = Some x /\ shaped f x /\ get_result keys f x = Some (x, v) /\
    fn_spec keys p i c (between p s e) f v.
Proof.
  intros R Sm Hp Hs He Hl.
  assert ((s <? 0) || (size p <=? s) || (e <=? 0) || (size p <? e) = false) as G.
  { rewrite !orb_false_iff. repeat split; lia. }
  assert (forall j, s <= j < e -> exists r, nth_error p (Z.to_nat j) = Some r) as Ex.
  { intros j Hj. destruct (nth_error p (Z.to_nat j)) eqn:E; [eauto|]. apply nth_error_None in E. unfold size in Hl. lia. }
  unfold call. rewrite G. destruct f; try discriminate; cbn [initialize].
  - do 2 eexists. split; [reflexivity|]. split; [exact Logic.I|]. split; [reflexivity|]. cbn [fn_spec].
    rewrite between_length by lia. reflexivity.
  - do 2 eexists. split; [reflexivity|]. split; [exact Logic.I|]. split; [reflexivity|]. cbn [fn_spec].
    rewrite count_ok. reflexivity.
  - cbn [small_fn] in Sm. pose proof (abs_between e0 p s e).
    rewrite sum_none by lia. cbn [option_map]. do 2 eexists. split; [reflexivity|]. split; [exact Logic.I|]. split; [reflexivity|].
    cbn [fn_spec]. destruct (nonnull e0 (between p s e)); reflexivity.
  - cbn [small_fn] in Sm. pose proof (abs_between e0 p s e).
    rewrite avg_ok by (cbn [Z.abs]; lia). cbn [option_map fst snd]. do 2 eexists. split; [reflexivity|]. split; [exact Logic.I|]. split; [reflexivity|].
    cbn [fn_spec]. destruct (nonnull e0 (between p s e)) as [|z l] eqn:E; [reflexivity|].
    cbn [length]. destruct (Z.eqb_spec (0 + Z.of_nat (S (length l))) 0); [lia|].
    do 2 eexists. split; [reflexivity|]. split; [lia|]. f_equal; lia.
  - do 2 eexists. split; [reflexivity|]. split; [exact Logic.I|]. split; [reflexivity|]. cbn [fn_spec].
    pose proof (extreme_none false t e0 (between p s e)) as K. unfold extspec in K.
    destruct (nonnull e0 (between p s e)) as [|z l] eqn:E.
    + destruct (extreme_rows false t e0 None (between p s e)); [discriminate K|reflexivity].
    + destruct K as (w & K & Kin & Km). destruct (extreme_rows false t e0 None (between p s e)) as [u|]; [|discriminate].
      injection K as <-. exists u. split; [reflexivity|]. split; [exact Kin|]. exact Km.
  - do 2 eexists. split; [reflexivity|]. split; [exact Logic.I|]. split; [reflexivity|]. cbn [fn_spec].
    pose proof (extreme_none true t e0 (between p s e)) as K. unfold extspec in K.
    destruct (nonnull e0 (between p s e)) as [|z l] eqn:E.
    + destruct (extreme_rows true t e0 None (between p s e)); [discriminate K|reflexivity].
    + destruct K as (w & K & Kin & Km). destruct (extreme_rows true t e0 None (between p s e)) as [u|]; [|discriminate].
      injection K as <-. exists u. split; [reflexivity|]. split; [exact Kin|]. exact Km.
  - destruct (Ex s) as (r & Er); [lia|]. unfold at_row. destruct (Z.ltb_spec s 0); [lia|]. rewrite Er. cbn [option_map].
    do 2 eexists. split; [reflexivity|]. split; [exact Logic.I|]. split; [reflexivity|]. cbn [fn_spec]. unfold value_at. cbn [Z.ltb Z.compare].
    rewrite (between_nth p s e 0) by lia. rewrite Z.add_0_r, Er. reflexivity.
  - destruct (Ex (e - 1)) as (r & Er); [lia|]. unfold at_row. destruct (Z.ltb_spec (e - 1) 0); [lia|]. rewrite Er. cbn [option_map].
    do 2 eexists. split; [reflexivity|]. split; [exact Logic.I|]. split; [reflexivity|]. cbn [fn_spec]. unfold value_at.
    rewrite between_length by lia. destruct (Z.ltb_spec (e - s - 1) 0); [lia|].
    rewrite (between_nth p s e (e - s - 1)) by lia. replace (s + (e - s - 1)) with (e - 1) by lia. now rewrite Er.
  - cbn [small_fn] in Sm. destruct Sm as (N1 & N2). unfold size in *.
    change (2 ^ 31) with 2147483648 in *. change (2 ^ 63) with 9223372036854775808.
    destruct (Z.leb_spec 9223372036854775808 (s + n)); [lia|].
    assert (to_signed 32 (s + n - 1) = s + n - 1) as ->.
    { unfold to_signed. change (2 ^ 32) with 4294967296. change (2 ^ (32 - 1)) with 2147483648.
      rewrite Z.mod_small by lia. destruct (Z.ltb_spec (s + n - 1) 2147483648); lia. }
    destruct (Z.leb_spec s (s + n - 1)); [|lia]. cbn [andb]. destruct (Z.ltb_spec (s + n - 1) e).
    + destruct (Ex (s + n - 1)) as (r & Er); [lia|]. unfold at_row. destruct (Z.ltb_spec (s + n - 1) 0); [lia|]. rewrite Er. cbn [option_map].
      do 2 eexists. split; [reflexivity|]. split; [exact Logic.I|]. split; [reflexivity|]. cbn [fn_spec]. unfold value_at.
      destruct (Z.ltb_spec (n - 1) 0); [lia|].
      rewrite (between_nth p s e (n - 1)) by lia. replace (s + (n - 1)) with (s + n - 1) by lia. now rewrite Er.
    + do 2 eexists. split; [reflexivity|]. split; [exact Logic.I|]. split; [reflexivity|]. cbn [fn_spec]. unfold value_at.
      destruct (Z.ltb_spec (n - 1) 0); [lia|].
      destruct (nth_error (between p s e) (Z.to_nat (n - 1))) eqn:E; [|reflexivity].
      assert (Z.to_nat (n - 1) < length (between p s e))%nat by (apply nth_error_Some; congruence).
      pose proof (between_length p s e Hs ltac:(lia) Hl). lia.
Qed.
Lemma empty_value keys p f i c : rank_like f = false ->
  exists v, get_result keys f (initialize f) = Some (initialize f, v) /\ fn_spec keys p i c [] f v.
Proof.
  intros R. destruct f; try discriminate; eexists; (split; [reflexivity|]); try reflexivity.
  cbn [fn_spec]. unfold value_at. cbn. destruct (n - 1 <? 0); [reflexivity|]. now destruct (Z.to_nat (n - 1)).
Qed.
