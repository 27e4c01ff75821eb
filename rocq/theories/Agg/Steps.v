(* initialize, update, merge and finalize of one call *)
From Coq Require Import List ZArith Bool Lia Sorting.Permutation Sorting.Sorted.
From Verif Require Import Common.Bytes Key.Model Key.Spec Agg.Model Agg.Spec Agg.Bits Agg.Sets Agg.Lists Agg.Group Agg.Calls.
Import ListNotations.
Local Open Scope Z_scope.

(* ---- initialize ---- *)

Lemma init_run c g : slot c g = None -> g_aux g (c_slot c) = aux0 -> run (c_fn c) [] (look c (initialize false c g)).
Proof.
  intros E A. unfold initialize. assert (A2 : v_aux (look c g) = aux0) by exact A. assert (E2 : v_int (look c g) = None) by exact E.
  destruct (c_fn c) as [|es|uns e|e|t e|t e|o e|e|sep es|sep es keys|sum t e]; unfold or_slot; rewrite ?E; rewrite ?look_set_fin, ?look_set_slot; cbn [run v_int v_aux].
  - reflexivity.
  - reflexivity.
  - exact E2.
  - reflexivity.
  - exact E2.
  - exact E2.
  - unfold xget. rewrite A. cbn [x_bits aux0]. rewrite look_xset. cbn [v_aux x_bits]. destruct o; cbn [nonnull flat_map];
      [exists []; split; [reflexivity|]|exists []; reflexivity|exists []; split; [reflexivity|]].
    + split; [constructor|]. intros x. cbn. split; [tauto|intros (b & [] & _)].
    + split; [constructor|]. intros x. cbn. split; [tauto|discriminate].
  - unfold xget. rewrite A. cbn [x_bits aux0]. rewrite look_xset. cbn [v_aux x_bits]. exists []. split; [reflexivity|].
    split; [constructor|]. intros x. cbn. split; [tauto|intros (b & [] & _)].
  - exists []. split; [constructor|exact E2].
  - exists []. rewrite A2. split; constructor.
  - rewrite A2. cbn. split; [constructor|]. split; [tauto|]. left. exact E2.
Qed.

(* ---- update ---- *)

Lemma bstep_or e R r l lr : e r = Some lr -> bitsof (FBits BOr e) R l -> bitsof (FBits BOr e) (r :: R) (bor l lr).
Proof.
  intros E [I0 M]. split; [now apply bor_inc|]. intros x. rewrite bor_in, M. cbn [bset]. rewrite nonnull_cons, E. cbn [In]. split.
  - intros [(b & Hb & Hx)|Hx]; [exists b|exists lr]; auto.
  - intros (b & [<-|Hb] & Hx); [right; exact Hx|left; exists b; auto].
Qed.

Lemma filter_len_cons {A} (f : A -> bool) x l : length (filter f (x :: l)) = ((if f x then 1 else 0) + length (filter f l))%nat.
Proof. cbn [filter]. destruct (f x); reflexivity. Qed.

Lemma odd_succ_negb n : Nat.odd (S n) = negb (Nat.odd n).
Proof. rewrite Nat.odd_succ, <- Nat.negb_odd. reflexivity. Qed.

Lemma parity_in x l p : (In x l <-> p = true) -> p = existsb (Z.eqb x) l.
Proof.
  intros E. apply eq_true_iff_eq. rewrite <- E. symmetry. apply (bmem_iff x l).
Qed.
Lemma xor_in_b x a b : In x (bxor a b) <-> xorb (existsb (Z.eqb x) a) (existsb (Z.eqb x) b) = true.
Proof.
  rewrite bxor_in. pose proof (bmem_iff x a) as A. pose proof (bmem_iff x b) as B. unfold bmem in *.
  destruct (existsb (Z.eqb x) a), (existsb (Z.eqb x) b); cbn [xorb]; intuition discriminate.
Qed.

Lemma update_run c r g R : run (c_fn c) R (look c g) -> fits (c_fn c) (r :: R) ->
  exists g', update c r g = Some g' /\ run (c_fn c) (r :: R) (look c g').
Proof.
  unfold update. destruct (c_fn c) as [|es|uns e|e|t e|t e|o e|e|sep es|sep es keys|sum t e]; intros Hr Hf.
  - eexists. split; [reflexivity|]. rewrite look_set_slot. cbn [run agg_spec v_int] in *. rewrite look_slot, Hr. cbn [incr].
    change (to_signed 64 ?z) with (wrap false z). rewrite wrap_add. do 3 f_equal. cbn [length]. f_equal. lia.
  - cbn [run agg_spec] in *.
    assert (EX : existsb (fun e : expr => match e r with None => true | _ => false end) es =
                 negb (forallb (fun e : expr => match e r with None => false | _ => true end) es)).
    { clear. induction es as [|e es IH]; [reflexivity|]. cbn [existsb forallb]. rewrite IH. destruct (e r); reflexivity. }
    rewrite EX. cbn [filter]. destruct (forallb _ es); cbn [negb].
    + eexists. split; [reflexivity|]. rewrite look_set_slot. cbn [v_int]. rewrite look_slot, Hr. cbn [incr].
      change (to_signed 64 ?z) with (wrap false z). rewrite wrap_add. do 3 f_equal. cbn [length]. f_equal. lia.
    + eexists. split; [reflexivity|]. exact Hr.
  - cbn [run] in *. apply spec_sum in Hr. destruct (e r) as [z|] eqn:E; (eexists; split; [reflexivity|]); apply spec_sum;
      rewrite nonnull_cons, E; [|exact Hr].
    rewrite look_set_slot. cbn [v_int]. rewrite look_slot, Hr. apply sumspec_cons.
  - cbn [run fits] in *. rewrite nonnull_cons in *. destruct (e r) as [z|] eqn:E; [|eexists; split; [reflexivity|]; exact Hr].
    rewrite look_slot, Hr. unfold dadd. cbn [map] in Hf. rewrite zsum_cons in Hf.
    pose proof (zsum_abs (nonnull e R)).
    destruct (Z.leb_spec (Z.abs (zsum (nonnull e R) + z)) (2 ^ 53)) as [L|L]; [|lia].
    eexists. split; [reflexivity|]. rewrite look_set_slot. cbn [v_int]. rewrite zsum_cons. cbn [length]. do 2 f_equal; lia.
  - cbn [run] in *. apply spec_min in Hr. destruct (e r) as [z|] eqn:E; (eexists; split; [reflexivity|]); apply spec_min;
      rewrite nonnull_cons, E; [|exact Hr].
    rewrite look_set_slot. cbn [v_int]. rewrite look_slot. apply extspec_cons, Hr.
  - cbn [run] in *. apply spec_max in Hr. destruct (e r) as [z|] eqn:E; (eexists; split; [reflexivity|]); apply spec_max;
      rewrite nonnull_cons, E; [|exact Hr].
    rewrite look_set_slot. cbn [v_int]. rewrite look_slot. apply extspec_cons, Hr.
  - cbn [fits] in Hf. rewrite nonnull_cons in Hf. destruct (e r) as [lr|] eqn:E.
    2:{ eexists. split; [reflexivity|]. cbn [run] in *. unfold bitsof, bset in *. rewrite !nonnull_cons, !E. exact Hr. }
    inversion Hf as [|? ? Hi Hf']; subst. eexists. split; [reflexivity|]. rewrite look_set_bits, look_bits_val. cbn [run v_aux x_bits] in *.
    destruct o.
    + destruct Hr as (l & Ex & B). rewrite Ex. cbn [bit_step fst snd bop]. eexists. split; [reflexivity|]. apply bstep_or; assumption.
    + rewrite nonnull_cons, E. destruct (nonnull e R) as [|b0 bs] eqn:EN.
      * destruct Hr as (l & Ex). rewrite Ex. cbn [bit_step fst snd]. eexists. split; [reflexivity|]. split; [exact Hi|].
        intros x. cbn [bset]. rewrite nonnull_cons, E, EN. cbn [In]. split; [intros Hx b [<-|[]]; exact Hx|intros Hx; apply Hx; auto].
      * destruct Hr as (l & Ex & I0 & M). rewrite Ex. cbn [bit_step fst snd]. eexists. split; [reflexivity|]. split; [now apply band_inc|].
        intros x. rewrite band_in, M. cbn [bset]. rewrite nonnull_cons, E, EN. cbn [In]. split.
        -- intros [A B] b [<-|Hb]; [exact B|apply A, Hb].
        -- intros Hx. split; [intros b Hb; apply Hx; auto|apply Hx; auto].
    + destruct Hr as (l & Ex & I0 & M). rewrite Ex. cbn [bit_step fst snd bop]. eexists. split; [reflexivity|]. split; [now apply bxor_inc|].
      intros x. rewrite xor_in_b. cbn [bset] in *. rewrite nonnull_cons, E, filter_len_cons.
      specialize (M x). rewrite <- (parity_in x l _ M).
      destruct (existsb (Z.eqb x) lr); cbn [plus]; rewrite ?odd_succ_negb; destruct (Nat.odd _); cbn; reflexivity.
  - destruct (e r) as [z|] eqn:E.
    2:{ eexists. split; [reflexivity|]. cbn [run] in *. unfold bitsof, bset in *. rewrite !nonnull_cons, !E. exact Hr. }
    eexists. split; [reflexivity|]. rewrite look_set_bits, look_bits_val. cbn [run v_aux x_bits] in *.
    destruct Hr as (l & Ex & I0 & M). rewrite Ex. cbn [fst snd]. eexists. split; [reflexivity|]. split; [now apply bins_inc|].
    intros x. rewrite bins_in, M. cbn [bset]. rewrite nonnull_cons, E. cbn [In]. unfold to_unsigned. split.
    + intros [->|(z0 & Hz & ->)]; [exists z; auto|exists z0; auto].
    + intros (z0 & [<-|Hz] & ->); [left; reflexivity|right; exists z0; auto].
  - rewrite strings_text. destruct (row_text es r) as [s|] eqn:E.
    2:{ eexists. split; [reflexivity|]. cbn [run agg_spec] in *. rewrite nonnull_cons, E. exact Hr. }
    eexists. split; [reflexivity|]. cbn [run agg_spec] in *. destruct Hr as (l & P & Ev). exists (l ++ [s]).
    rewrite nonnull_cons, E, look_set_slot. cbn [v_int]. rewrite look_slot, Ev. split; [|symmetry; apply joined_snoc].
    rewrite <- Permutation_cons_append. now constructor.
  - rewrite strings_text. cbn [run] in *. destruct Hr as (bs & F & P). destruct (row_text es r) as [s|] eqn:E.
    2:{ eexists. split; [reflexivity|]. exists bs. split; [exact F|]. cbn [filter]. unfold has_text at 1. rewrite E. exact P. }
    eexists. split; [reflexivity|]. exists (bs ++ [[r]]). rewrite look_add_batch. cbn [v_aux x_batch]. split.
    + apply Forall2_app; [exact F|]. constructor; [|constructor]. split; [constructor; [unfold has_text; now rewrite E|constructor]|]. split.
      * rewrite nonnull_cons, E. cbn [nonnull flat_map joined snd]. now rewrite app_nil_r.
      * exists r. split; [reflexivity|]. intros r' [<-|[]]. clear. induction keys as [|[[t e] asc] q IH]; cbn [order_compare]; [reflexivity|].
        replace (column_compare t asc (e r) (e r)) with Eq; [exact IH|]. unfold column_compare.
        destruct (e r); rewrite ?vc_refl; destruct asc; reflexivity.
    + cbn [filter]. unfold has_text at 1. rewrite E, concat_app. cbn [concat app]. rewrite <- Permutation_cons_append. now constructor.
  - cbn [run] in *. destruct Hr as (N & M & Ei). destruct (e r) as [v|] eqn:E.
    2:{ eexists. split; [reflexivity|]. rewrite nonnull_cons, E. auto. }
    eexists. split; [reflexivity|]. rewrite look_set_set. cbn [v_aux v_int x_set]. rewrite nonnull_cons, E, look_x. split; [now apply sins_nodup|]. split.
    + intros x. rewrite sins_in, M. cbn [In]. intuition.
    + destruct Ei as [Ei|(b & s & Ei & U & Is)]; [left; exact Ei|right]. exists b, s. split; [exact Ei|]. split; [exact U|].
      intros x Hx. apply sins_in. right. apply Is, Hx.
Qed.

(* ---- merge ---- *)

Definition keyed (f : fn) (r0 : row) (rs : list row) : Prop :=
  match f with FConcatBy _ _ keys => forall r, In r rs -> order_compare keys r0 r = Eq | _ => True end.

(* the text of rows in some order is the text of the rows in that order *)
Definition tx (es : list (row -> option (list Z))) (r : row) : list Z := match row_text es r with Some s => s | None => [] end.
Lemma nonnull_tx es R : nonnull (row_text es) R = map (tx es) (filter (has_text es) R).
Proof.
  induction R as [|r R IH]; [reflexivity|]. rewrite nonnull_cons. cbn [filter]. unfold has_text at 1.
  destruct (row_text es r) as [s|] eqn:E; [|exact IH]. cbn [map]. unfold tx at 1. now rewrite E, IH.
Qed.
Lemma filter_all {A} (f : A -> bool) l : Forall (fun x => f x = true) l -> filter f l = l.
Proof. intros F. induction F as [|x l Hx F IH]; cbn [filter]; [reflexivity|]. now rewrite Hx, IH. Qed.
Lemma Forall_filter {A} (f : A -> bool) l : Forall (fun x => f x = true) (filter f l).
Proof. apply Forall_forall. intros x Hx. apply filter_In in Hx. tauto. Qed.
Lemma nonnull_tx_all es R : Forall (fun r => has_text es r = true) R -> nonnull (row_text es) R = map (tx es) R.
Proof. intros F. rewrite nonnull_tx. now rewrite filter_all. Qed.
Lemma texts_reorder es R l : Permutation (nonnull (row_text es) R) l ->
  exists b, Permutation (filter (has_text es) R) b /\ nonnull (row_text es) b = l.
Proof.
  rewrite nonnull_tx. intros P. apply Permutation_sym, Permutation_map_inv in P. destruct P as (b & -> & P).
  exists b. split; [exact P|]. apply nonnull_tx_all. apply Forall_forall. intros x Hx.
  apply (Permutation_in x (Permutation_sym P)) in Hx. apply filter_In in Hx. tauto.
Qed.
Lemma joined_none sep l : joined sep l = None -> l = [].
Proof. destruct l; [reflexivity|discriminate]. Qed.
Lemma joined_form sep l : joined sep l = None \/ exists s, joined sep l = Some (AV (VStr s)).
Proof. destruct l; [left; reflexivity|right; eexists; reflexivity]. Qed.

Lemma batch_step c sep es keys m rs R g (sv : option aval) :
  c_fn c = FConcatBy sep es keys -> sv = m_int m (c_slot c) ->
  acc (c_fn c) rs sv -> keyed (c_fn c) (m_src m) rs -> run (c_fn c) R (look c g) ->
  run (c_fn c) (rs ++ R)
    (look c (match sv with Some (AV (VStr s)) => add_batch c (key_values keys (m_src m), s) g | _ => g end)).
Proof.
  intros Ec _ Ha Hk Hr. rewrite Ec in *. cbn [acc agg_spec keyed run] in *. destruct Ha as (l & P & ->). destruct Hr as (bs & F & Q).
  destruct (texts_reorder es rs l P) as (b & Pb & Eb).
  destruct (joined_form sep l) as [E|(s & E)]; rewrite E.
  - apply joined_none in E. subst l. exists bs. split; [exact F|]. rewrite filter_app.
    assert (filter (has_text es) rs = []) as ->; [|exact Q].
    assert (E2 : map (tx es) (filter (has_text es) rs) = []) by (rewrite <- nonnull_tx; rewrite E in P; now apply Permutation_sym, Permutation_nil in P).
    now apply map_eq_nil in E2.
  - exists (bs ++ [b]). rewrite look_add_batch. cbn [v_aux x_batch]. split.
    + apply Forall2_app; [exact F|]. constructor; [|constructor].
      assert (FB : Forall (fun r => has_text es r = true) b).
      { apply Forall_forall. intros x Hx. apply (Permutation_in x (Permutation_sym Pb)) in Hx. apply filter_In in Hx. tauto. }
      split; [exact FB|]. split; [rewrite Eb; exact E|]. exists (m_src m). split; [reflexivity|].
      intros r Hin. apply Hk. apply (Permutation_in r (Permutation_sym Pb)) in Hin. apply filter_In in Hin. tauto.
    + rewrite filter_app, concat_app. cbn [concat]. rewrite app_nil_r. rewrite Permutation_app_comm. now apply Permutation_app.
Qed.

Lemma item_fits sum t e R s : fits (FMulti sum t e) R -> (forall x, In x s <-> In x (nonnull e R)) -> NoDup s ->
  Forall (item_ok t) s /\ zsum (map item_size s) < 2 ^ 31 - 1.
Proof.
  intros [A B] M N. split.
  - apply Forall_forall. intros v Hv. apply A, M, Hv.
  - apply B; [exact N|]. intros x. apply M.
Qed.
Lemma members_nil {A} (s l : list A) : (forall x, In x s <-> In x l) -> s = [] <-> l = [].
Proof.
  intros M. destruct s as [|x s], l as [|y l]; try tauto; [exfalso; apply (M y)|exfalso; apply (M x)|split; discriminate]; left; reflexivity.
Qed.

Lemma merge_first c m g gi rs : c_distinct c = false ->
  slot c gi = m_int m (c_slot c) -> g_aux gi (c_slot c) = aux0 -> look c g = look c (initialize false c gi) ->
  acc (c_fn c) rs (m_int m (c_slot c)) -> keyed (c_fn c) (m_src m) rs -> part_ok (c_fn c) rs -> fits (c_fn c) rs ->
  exists g', merge c true m g = Some g' /\ run (c_fn c) rs (look c g').
Proof.
  intros Hd Es Ea El Ha Hk Hp Hf. unfold merge. rewrite Hd.
  assert (Es2 : v_int (look c gi) = m_int m (c_slot c)) by exact Es. assert (Ea2 : v_aux (look c gi) = aux0) by exact Ea.
  unfold initialize in El.
  destruct (c_fn c) as [|es|uns e|e|t e|t e|o e|e|sep es|sep es keys|sum t e] eqn:Ec; unfold or_slot in El; cbn [acc] in Ha.
  - eexists. split; [reflexivity|]. rewrite El, Es. cbn [agg_spec] in Ha. rewrite Ha. cbn [run agg_spec]. rewrite Es2. exact Ha.
  - eexists. split; [reflexivity|]. rewrite El, Es. cbn [agg_spec] in Ha. rewrite Ha. cbn [run agg_spec]. rewrite Es2. exact Ha.
  - eexists. split; [reflexivity|]. rewrite El. cbn [run]. rewrite Es2. exact Ha.
  - eexists. split; [reflexivity|]. rewrite El, Es, Ha. cbn [run]. rewrite Es2. exact Ha.
  - eexists. split; [reflexivity|]. rewrite El. cbn [run]. rewrite Es2. exact Ha.
  - eexists. split; [reflexivity|]. rewrite El. cbn [run]. rewrite Es2. exact Ha.
  - assert (exists l, m_int m (c_slot c) = Some (ABits l) /\ bitsof (FBits o e) rs l) as (l & El2 & B).
    { destruct o; try exact Ha. cbn [part_ok] in Hp. destruct (nonnull e rs); [congruence|exact Ha]. }
    rewrite look_slot, El. unfold xget. rewrite Ea. cbn [x_bits aux0]. rewrite Es, El2. rewrite look_xset, look_set_slot. cbn [v_int].
    eexists. split; [reflexivity|]. rewrite look_set_bits. cbn [run v_aux x_bits].
    destruct o; try (exists l; split; [reflexivity|exact B]). cbn [part_ok] in Hp. destruct (nonnull e rs); [congruence|]. exists l; split; [reflexivity|exact B].
  - destruct Ha as (l & El2 & B).
    rewrite look_slot, El. unfold xget. rewrite Ea. cbn [x_bits aux0]. rewrite Es, El2. rewrite look_xset, look_set_slot. cbn [v_int].
    eexists. split; [reflexivity|]. rewrite look_set_bits. cbn [run v_aux x_bits]. exists l; split; [reflexivity|exact B].
  - eexists. split; [reflexivity|]. rewrite El. cbn [run]. rewrite Es2. exact Ha.
  - eexists. split; [reflexivity|]. rewrite <- (app_nil_r rs).
    assert (Esg : slot c g = m_int m (c_slot c)) by (rewrite look_slot, El; exact Es2).
    pose proof (batch_step c sep es keys m rs [] g (slot c g) Ec Esg) as BS. rewrite Ec in BS. apply BS.
    + rewrite Esg. exact Ha.
    + exact Hk.
    + exists []. rewrite El, Ea2. split; constructor.
  - destruct Ha as (set & N & M & Eset). cbn [part_ok] in Hp.
    assert (Hne : set <> []) by (rewrite (members_nil _ _ M); exact Hp).
    destruct (item_fits _ _ _ _ _ Hf M N) as [F B].
    rewrite look_slot, El, Es, Eset. rewrite Es2, Eset. rewrite (unserialize_serialize t set F Hne B).
    eexists. split; [reflexivity|]. rewrite look_set_set. cbn [run v_aux v_int x_set]. rewrite look_x, El, Es, Eset, Ea2, Es2, Eset. cbn [x_set aux0].
    split; [apply smerge_nodup; constructor|]. split.
    + intros x. rewrite smerge_in, <- M. cbn. tauto.
    + right. exists (serialize t set), set. split; [reflexivity|]. split; [apply unserialize_serialize; assumption|].
      intros x Hx. apply smerge_in. auto.
Qed.

Lemma bitsof_app o e a b l1 l2 : bitsof (FBits o e) a l2 -> bitsof (FBits o e) b l1 ->
  bitsof (FBits o e) (a ++ b) (bop o l1 l2).
Proof.
  intros [I2 M2] [I1 M1]. destruct o; cbn [bop bset] in *.
  - split; [now apply bor_inc|]. intros x. rewrite bor_in, M1, M2. cbn [bset]. rewrite nonnull_app. split.
    + intros [(d & Hd & Hx)|(d & Hd & Hx)]; exists d; rewrite in_app_iff; auto.
    + intros (d & Hd & Hx). apply in_app_iff in Hd. destruct Hd; [right|left]; exists d; auto.
  - split; [now apply band_inc|]. intros x. rewrite band_in, M1, M2. cbn [bset]. rewrite nonnull_app. split.
    + intros [A B] d Hd. apply in_app_iff in Hd. destruct Hd; auto.
    + intros A. split; intros d Hd; apply A, in_app_iff; auto.
  - split; [now apply bxor_inc|]. intros x. rewrite xor_in_b. cbn [bset].
    rewrite <- (parity_in x l1 _ (M1 x)), <- (parity_in x l2 _ (M2 x)), nonnull_app, filter_app, app_length, Nat.odd_add.
    rewrite xorb_comm. reflexivity.
Qed.

Lemma merge_next c m g rs R : c_distinct c = false -> run (c_fn c) R (look c g) ->
  acc (c_fn c) rs (m_int m (c_slot c)) -> keyed (c_fn c) (m_src m) rs -> part_ok (c_fn c) rs -> fits (c_fn c) (rs ++ R) ->
  exists g', merge c false m g = Some g' /\ run (c_fn c) (rs ++ R) (look c g').
Proof.
  intros Hd Hr Ha Hk Hp Hf. unfold merge. rewrite Hd.
  destruct (c_fn c) as [|es|uns e|e|t e|t e|o e|e|sep es|sep es keys|sum t e] eqn:Ec.
  - cbn [acc agg_spec run] in *. rewrite Ha. eexists. split; [reflexivity|]. rewrite look_set_slot. cbn [v_int]. rewrite look_slot, Hr.
    cbn [add_slot]. change (to_signed 64 ?z) with (wrap false z). rewrite wrap_add2, app_length. do 3 f_equal. f_equal. lia.
  - cbn [acc agg_spec run] in *. rewrite Ha. eexists. split; [reflexivity|]. rewrite look_set_slot. cbn [v_int]. rewrite look_slot, Hr.
    cbn [add_slot]. change (to_signed 64 ?z) with (wrap false z). rewrite wrap_add2, filter_app, app_length. do 3 f_equal. f_equal. lia.
  - cbn [acc run] in *. apply spec_sum in Hr. apply spec_sum in Ha. rewrite Ha.
    destruct (nonnull e rs) as [|z0 l0] eqn:En; cbn [sumspec].
    + eexists. split; [reflexivity|]. apply spec_sum. rewrite nonnull_app, En. exact Hr.
    + eexists. split; [reflexivity|]. apply spec_sum. rewrite look_set_slot. cbn [v_int]. rewrite look_slot, Hr, nonnull_app, En.
      apply sumspec_app. reflexivity.
  - cbn [acc run fits] in *. rewrite Ha, look_slot, Hr. unfold dadd. rewrite nonnull_app, map_app, zsum_app in Hf.
    pose proof (zsum_abs (nonnull e R)). pose proof (zsum_abs (nonnull e rs)).
    destruct (Z.leb_spec (Z.abs (zsum (nonnull e R) + zsum (nonnull e rs))) (2 ^ 53)) as [L|L]; [|lia].
    eexists. split; [reflexivity|]. rewrite look_set_slot. cbn [v_int]. rewrite nonnull_app, zsum_app, app_length. do 2 f_equal; lia.
  - cbn [acc run] in *. apply spec_min in Hr. apply spec_min in Ha.
    destruct (m_int m (c_slot c)) as [[v|? ?|?]|] eqn:Em; try (unfold extspec in Ha; destruct (nonnull e rs); [discriminate|destruct Ha as (? & ? & _); discriminate]).
    + eexists. split; [reflexivity|]. apply spec_min. rewrite look_set_slot. cbn [v_int]. rewrite look_slot, nonnull_app. now apply extspec_app.
    + eexists. split; [reflexivity|]. apply spec_min. rewrite nonnull_app. unfold extspec in Ha at 1. destruct (nonnull e rs) as [|x xs]; [exact Hr|].
      destruct Ha as (? & ? & _); discriminate.
  - cbn [acc run] in *. apply spec_max in Hr. apply spec_max in Ha.
    destruct (m_int m (c_slot c)) as [[v|? ?|?]|] eqn:Em; try (unfold extspec in Ha; destruct (nonnull e rs); [discriminate|destruct Ha as (? & ? & _); discriminate]).
    + eexists. split; [reflexivity|]. apply spec_max. rewrite look_set_slot. cbn [v_int]. rewrite look_slot, nonnull_app. now apply extspec_app.
    + eexists. split; [reflexivity|]. apply spec_max. rewrite nonnull_app. unfold extspec in Ha at 1. destruct (nonnull e rs) as [|x xs]; [exact Hr|].
      destruct Ha as (? & ? & _); discriminate.
  - cbn [acc run] in *. destruct o.
    + destruct Ha as (l & El & B). rewrite El. eexists. split; [reflexivity|]. rewrite look_set_bits, look_bits_val. cbn [v_aux x_bits].
      destruct Hr as (l1 & Ex & B1). rewrite Ex. cbn [bit_step fst snd]. eexists. split; [reflexivity|]. now apply bitsof_app.
    + cbn [part_ok] in Hp. destruct (nonnull e rs) as [|b0 bs] eqn:En; [congruence|]. destruct Ha as (l & El & B). rewrite El.
      eexists. split; [reflexivity|]. rewrite look_set_bits, look_bits_val. cbn [v_aux x_bits]. rewrite nonnull_app, En. cbn [app].
      destruct (nonnull e R) as [|d0 ds] eqn:En2.
      * destruct Hr as (l1 & Ex). rewrite Ex. cbn [bit_step fst snd]. eexists. split; [reflexivity|].
        destruct B as [B1 B2]. split; [exact B1|]. intros x. rewrite B2. cbn [bset]. rewrite nonnull_app, En2, app_nil_r. reflexivity.
      * destruct Hr as (l1 & Ex & B1). rewrite Ex. cbn [bit_step fst snd]. eexists. split; [reflexivity|]. apply (bitsof_app BAnd); assumption.
    + destruct Ha as (l & El & B). rewrite El. eexists. split; [reflexivity|]. rewrite look_set_bits, look_bits_val. cbn [v_aux x_bits].
      destruct Hr as (l1 & Ex & B1). rewrite Ex. cbn [bit_step fst snd]. eexists. split; [reflexivity|]. now apply bitsof_app.
  - cbn [acc run] in *. destruct Ha as (l & El & [I2 M2]). rewrite El. eexists. split; [reflexivity|]. rewrite look_set_bits, look_bits_val. cbn [v_aux x_bits].
    destruct Hr as (l1 & Ex & [I1 M1]). rewrite Ex. cbn [fst snd]. eexists. split; [reflexivity|]. split; [now apply bor_inc|].
    intros x. rewrite bor_in, M1, M2. cbn [bset]. rewrite nonnull_app. split.
    + intros [(d & Hd' & Hx)|(d & Hd' & Hx)]; exists d; rewrite in_app_iff; auto.
    + intros (d & Hd' & Hx). apply in_app_iff in Hd'. destruct Hd'; [right|left]; exists d; auto.
  - cbn [acc run agg_spec] in *. destruct Ha as (l & P & Ev). destruct Hr as (l1 & P1 & Ev1). rewrite Ev.
    destruct (joined_form sep l) as [E|(s & E)].
    + rewrite E. apply joined_none in E. subst l. apply Permutation_sym, Permutation_nil in P.
      eexists. split; [reflexivity|]. exists l1. rewrite nonnull_app, P. auto.
    + rewrite E. eexists. split; [reflexivity|]. rewrite look_set_slot. cbn [v_int]. rewrite look_slot, Ev1. exists (l1 ++ l).
      split; [|symmetry; now apply joined_app]. rewrite nonnull_app, Permutation_app_comm. now apply Permutation_app.
  - eexists. split; [reflexivity|]. pose proof (batch_step c sep es keys m rs R g (m_int m (c_slot c)) Ec eq_refl) as BS. rewrite Ec in BS.
    apply BS; assumption.
  - cbn [acc run part_ok] in *. destruct Ha as (set & N & M & Eset). destruct Hr as (N1 & M1 & Ei).
    assert (Hne : set <> []) by (rewrite (members_nil _ _ M); exact Hp).
    destruct (item_fits _ _ _ _ _ (proj1 (fits_app _ _ _ Hf)) M N) as [F B].
    rewrite Eset, (unserialize_serialize t set F Hne B).
    eexists. split; [reflexivity|]. rewrite look_set_set. cbn [run v_aux v_int x_set]. rewrite look_x.
    split; [now apply smerge_nodup|]. split.
    + intros x. rewrite smerge_in, nonnull_app, in_app_iff, M1, M. tauto.
    + destruct Ei as [Ei|(b & s & Ei & U & Is)]; [left; exact Ei|right]. exists b, s. split; [exact Ei|]. split; [exact U|].
      intros x Hx. apply smerge_in. left. apply Is, Hx.
Qed.
