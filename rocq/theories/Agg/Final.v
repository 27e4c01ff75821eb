(* finalize, rows that hold nothing, and the independence of the calls of a node *)
From Coq Require Import List ZArith Bool Lia Sorting.Permutation Sorting.Sorted.
From Verif Require Import Common.Bytes Key.Model Key.Spec Agg.Model Agg.Spec Agg.Bits Agg.Sets Agg.Lists Agg.Group Agg.Calls Agg.Steps.
Import ListNotations.
Local Open Scope Z_scope.

Lemma smerge_incl s t : incl t s -> smerge s t = s.
Proof.
  unfold smerge. revert s. induction t as [|v t IH]; intros s Hi; cbn [fold_left]; [reflexivity|].
  assert (sins v s = s) as ->.
  { unfold sins. replace (existsb (veqb v) s) with true; [reflexivity|]. symmetry. apply sins_mem, Hi. left; reflexivity. }
  apply IH. intros x Hx. apply Hi. right; exact Hx.
Qed.
Definition numof (x : value) : Z := match x with VNum z => z | VStr _ => 0 end.
Lemma sum_fold s : forall a, fold_left (fun a v => match v with VNum z => add64 false a z | _ => a end) s (wrap false a) = wrap false (a + zsum (map numof s)).
Proof.
  induction s as [|[z|u] s IH]; intros a; cbn [fold_left map numof]; rewrite ?zsum_cons.
  - cbn. now rewrite Z.add_0_r.
  - rewrite wrap_add, IH. f_equal. lia.
  - rewrite IH. f_equal.
Qed.

(* ---- ORDER BY ---- *)
Lemma join_acc sep l : forall a, a <> [] -> join_nonempty sep a l = a ++ flat_map (fun u => sep ++ u) l.
Proof.
  induction l as [|s l IH]; intros a Ha; cbn [join_nonempty flat_map]; [now rewrite app_nil_r|].
  destruct a as [|x a]; [congruence|]. rewrite IH by (cbn; discriminate). rewrite <- !app_assoc. reflexivity.
Qed.
Lemma join_joined sep l : Forall (fun s => s <> []) l -> l <> [] -> Some (AV (VStr (join_nonempty sep [] l))) = joined sep l.
Proof.
  intros F Hn. destruct l as [|s l]; [congruence|]. inversion F; subst. cbn [join_nonempty joined app]. now rewrite join_acc.
Qed.
Lemma joined_chunks sep es keys batch bs : Forall2 (chunk sep es keys) batch bs ->
  joined sep (nonnull (row_text es) (concat bs)) = joined sep (map snd batch).
Proof.
  intros F. induction F as [|br b batch bs (_ & J & _) F IH]; [reflexivity|].
  cbn [concat map]. rewrite nonnull_app. change (snd br :: map snd batch) with ([snd br] ++ map snd batch).
  destruct (joined_form sep (map snd batch)) as [E|(u & E)].
  - rewrite E in IH. apply joined_none in IH, E. rewrite IH, E, !app_nil_r, J. cbn [joined flat_map]. now rewrite app_nil_r.
  - rewrite (joined_app sep _ _ u (eq_trans IH E)), (joined_app sep _ _ u E), J. cbn [joined flat_map concat_slot]. now rewrite app_nil_r.
Qed.
Lemma chunk_nonempty sep es keys br b : Forall (fun s => s <> []) (nonnull (row_text es) b) -> chunk sep es keys br b -> snd br <> [].
Proof.
  intros F (_ & J & _) E. rewrite E in J. destruct (nonnull (row_text es) b) as [|s l]; [discriminate|].
  inversion F; subst. cbn [joined] in J. injection J as J. destruct s; [congruence|discriminate].
Qed.
Lemma oc_trans keys a b c : order_compare keys a b <> Gt -> order_compare keys b c <> Gt -> order_compare keys a c <> Gt.
Proof.
  rewrite <- !key_order. apply kc_trans; unfold key_values, key_types; now rewrite !map_length.
Qed.
Lemma oc_antisym keys a b : order_compare keys b a = CompOpp (order_compare keys a b).
Proof. rewrite <- !key_order. apply kc_antisym. Qed.
Lemma sorted_app {A} (P : A -> A -> Prop) a b : StronglySorted P a -> StronglySorted P b ->
  (forall x y, In x a -> In y b -> P x y) -> StronglySorted P (a ++ b).
Proof.
  intros Sa Sb H0. induction Sa as [|x a Sa IH Hx]; cbn [app]; [exact Sb|]. constructor.
  - apply IH. intros u v Hu Hv. apply H0; [right|]; assumption.
  - apply Forall_app. split; [exact Hx|]. apply Forall_forall. intros y Hy. apply H0; [left; reflexivity|exact Hy].
Qed.
Lemma sorted_const {A} (P : A -> A -> Prop) a : (forall x y, In x a -> In y a -> P x y) -> StronglySorted P a.
Proof.
  induction a as [|x a IH]; intros H0; constructor.
  - apply IH. intros u v Hu Hv. apply H0; right; assumption.
  - apply Forall_forall. intros y Hy. apply H0; [left; reflexivity|right; exact Hy].
Qed.
Lemma in_chunks sep es keys batch bs y : Forall2 (chunk sep es keys) batch bs -> In y (concat bs) ->
  exists br b, In br batch /\ In y b /\ chunk sep es keys br b.
Proof.
  intros F. induction F as [|br b batch bs C F IH]; cbn [concat]; intros Hy; [contradiction|].
  apply in_app_iff in Hy. destruct Hy as [Hy|Hy].
  - exists br, b. split; [left; reflexivity|]. auto.
  - destruct (IH Hy) as (br' & b' & H1 & H2 & H3). exists br', b'. split; [right; exact H1|]. auto.
Qed.
Lemma sorted_chunks sep es keys batch bs : Forall2 (chunk sep es keys) batch bs ->
  StronglySorted (le_key (key_types keys)) batch -> StronglySorted (fun r r' => order_compare keys r r' <> Gt) (concat bs).
Proof.
  intros F. induction F as [|br b batch bs (T & J & r0 & Ek & K) F IH]; intros S0; cbn [concat]; [constructor|].
  inversion S0 as [|? ? S1 Hb]; subst. apply sorted_app; [|apply IH, S1|].
  - apply sorted_const. intros x y Hx Hy. apply oc_trans with r0.
    + rewrite (oc_antisym keys r0 x), (K x Hx). discriminate.
    + rewrite (K y Hy). discriminate.
  - intros x y Hx Hy. destruct (in_chunks _ _ _ _ _ _ F Hy) as (br' & b' & Hbr & Hy' & (_ & _ & r1 & Ek1 & K1)).
    rewrite Forall_forall in Hb. specialize (Hb br' Hbr). unfold le_key in Hb. rewrite Ek, Ek1, key_order in Hb.
    apply oc_trans with r0; [rewrite (oc_antisym keys r0 x), (K x Hx); discriminate|].
    apply oc_trans with r1; [exact Hb|]. rewrite (K1 y Hy'). discriminate.
Qed.

(* ---- finalize ---- *)
Definition sum_ok (f : fn) (R : list row) : Prop := match f with FMulti true _ e => nonnull e R <> [] | _ => True end.
Lemma final_ok merger c g R : run (c_fn c) R (look c g) -> fits (c_fn c) R -> R <> [] ->
  exists g', finalize merger c g = Some g' /\
    match c_fn c with FConcatBy _ _ _ => True | f => acc f R (m_int (g_row g') (c_slot c)) end /\
    (merger = true -> sum_ok (c_fn c) R -> agg_spec (c_fn c) R (result c (g_row g'))).
Proof.
  intros Hr Hf Hn. unfold finalize, result.
  destruct (c_fn c) as [|es|uns e|e|t e|t e|o e|e|sep es|sep es keys|sum t e] eqn:Ec; cbn [run] in Hr;
    try (eexists; split; [reflexivity|]; split; [exact Hr|intros _ _; exact Hr]).
  - (* AVG *) eexists. split; [reflexivity|].
    change (m_int (g_row ?x) (c_slot c)) with (v_int (look c x)). change (m_fin (g_row ?x) (c_slot c)) with (v_fin (look c x)).
    rewrite look_set_fin. cbn [v_int v_fin]. rewrite look_slot, Hr. split; [reflexivity|]. intros _ _. apply spec_avg. unfold avgspec.
    destruct (nonnull e R) as [|z l]; [reflexivity|]. destruct (Z.eqb_spec (Z.of_nat (length (z :: l))) 0); [cbn [length] in *; lia|reflexivity].
  - (* bitmaps *) eexists. split; [reflexivity|]. change (m_int (g_row ?x) (c_slot c)) with (v_int (look c x)).
    rewrite look_set_slot. cbn [v_int]. rewrite look_bits_val. destruct o.
    + destruct Hr as (l & Ex & B). rewrite Ex. cbn [fst snd]. split; [exists l; auto|]. intros _ _. cbn [agg_spec].
      destruct R; [congruence|]. exists l. split; [reflexivity|exact B].
    + cbn [acc]. assert (E : andspec e R (if fst match x_bits (v_aux (look c g)) with Some b => b | None => (false, []) end
                      then Some (ABits (snd match x_bits (v_aux (look c g)) with Some b => b | None => (false, []) end)) else None)).
      { unfold andspec. destruct (nonnull e R) as [|b0 bs].
        - destruct Hr as (l & Ex). rewrite Ex. reflexivity.
        - destruct Hr as (l & Ex & B). rewrite Ex. cbn [fst snd]. exists l; auto. }
      split; [exact E|]. intros _ _. apply spec_and, E.
    + destruct Hr as (l & Ex & B). rewrite Ex. cbn [fst snd]. split; [exists l; auto|]. intros _ _. cbn [agg_spec].
      destruct R; [congruence|]. exists l. split; [reflexivity|exact B].
  - eexists. split; [reflexivity|]. change (m_int (g_row ?x) (c_slot c)) with (v_int (look c x)).
    rewrite look_set_slot. cbn [v_int]. rewrite look_bits_val.
    destruct Hr as (l & Ex & B). rewrite Ex. cbn [fst snd]. split; [exists l; auto|]. intros _ _. cbn [agg_spec].
    destruct R; [congruence|]. exists l. split; [reflexivity|exact B].
  - (* ORDER BY *) eexists. split; [reflexivity|]. split; [exact I|]. intros _ _. destruct Hr as (bs & F & P).
    rewrite look_x. cbn [fits] in Hf.
    assert (Hf2 : Forall (fun s => s <> []) (nonnull (row_text es) (concat bs))).
    { apply Forall_forall. intros s Hs. rewrite Forall_forall in Hf. apply Hf. rewrite nonnull_tx.
      eapply Permutation_in; [apply Permutation_map, Permutation_sym, P|].
      rewrite nonnull_tx in Hs. apply in_map_iff in Hs. destruct Hs as (r & <- & Hr). apply filter_In in Hr. apply in_map, Hr. }
    destruct (Permutation_Forall2 (sort_perm (key_types keys) (x_batch (v_aux (look c g)))) F) as (bs' & Pb & F').
    assert (P' : Permutation (filter (has_text es) R) (concat bs')).
    { etransitivity; [exact P|]. clear - Pb. induction Pb; cbn [concat]; auto.
      - now apply Permutation_app_head.
      - rewrite !app_assoc. apply Permutation_app_tail, Permutation_app_comm.
      - etransitivity; eauto. }
    assert (S' : StronglySorted (le_key (key_types keys)) (sort_by (key_types keys) (x_batch (v_aux (look c g))))).
    { apply sort_sorted. clear - F. induction F as [|br b l l' (_ & _ & r0 & E0 & _) F IH]; constructor; [|exact IH]. rewrite E0.
      unfold key_values, key_types. now rewrite !map_length. }
    assert (NE : Forall (fun s => s <> []) (map snd (sort_by (key_types keys) (x_batch (v_aux (look c g)))))).
    { clear - F Hf2. apply Forall_forall. intros s Hs. apply in_map_iff in Hs. destruct Hs as (br & <- & Hb).
      apply (Permutation_in br (Permutation_sym (sort_perm _ _))) in Hb.
      induction F as [|br' b l l' C F IH]; [contradiction|]. cbn [concat] in Hf2. rewrite nonnull_app in Hf2. apply Forall_app in Hf2.
      destruct Hb as [->|Hb]; [eapply chunk_nonempty; [exact (proj1 Hf2)|exact C]|apply IH; tauto]. }
    exists (concat bs'). split; [exact P'|]. split; [eapply sorted_chunks; eauto|].
    rewrite (joined_chunks _ _ _ _ _ F').
    destruct (x_batch (v_aux (look c g))) as [|br0 q0] eqn:Eb.
    + cbn [sort_by fold_right map joined]. change (v_int (look c (set_slot c None g)) = None). rewrite look_set_slot. reflexivity.
    + rewrite <- join_joined; [|exact NE|].
      * change (v_int (look c (set_slot c (Some (AV (VStr (join_nonempty sep [] (map snd (sort_by (key_types keys) (br0 :: q0))))))) g)) =
          Some (AV (VStr (join_nonempty sep [] (map snd (sort_by (key_types keys) (br0 :: q0))))))). rewrite look_set_slot. reflexivity.
      * intros E. apply map_eq_nil in E. pose proof (sort_perm (key_types keys) (br0 :: q0)) as SP. rewrite E in SP.
        apply Permutation_sym, Permutation_nil in SP. discriminate.
  - (* MULTI *) destruct Hr as (N & M & Ei). destruct merger; cbn [negb].
    + assert (E : (match slot c g with
               | Some (AV (VStr b)) => match unserialize b with Some s => Some (smerge (x_set (xget c g)) s) | None => None end
               | _ => Some (x_set (xget c g))
               end) = Some (x_set (v_aux (look c g)))).
      { rewrite look_slot, look_x. destruct Ei as [->|(b & s & -> & -> & Is)]; [reflexivity|]. now rewrite smerge_incl. }
      rewrite E. eexists. split; [reflexivity|].
      change (m_int (g_row ?x) (c_slot c)) with (v_int (look c x)). change (m_fin (g_row ?x) (c_slot c)) with (v_fin (look c x)).
      rewrite look_set_slot, look_set_fin, look_set_set. cbn [v_int v_fin]. split; [exists (x_set (v_aux (look c g))); auto|].
      intros _ Hp. exists (x_set (v_aux (look c g))). split; [exact N|]. split; [exact M|]. destruct sum; [|reflexivity].
      cbn [sum_ok] in Hp. assert (Hne : x_set (v_aux (look c g)) <> []) by (rewrite (members_nil _ _ M); exact Hp).
      pose proof (sum_fold (x_set (v_aux (look c g))) 0) as SF. change (wrap false 0) with 0 in SF. rewrite SF.
      destruct (x_set (v_aux (look c g))) as [|x0 xs]; [congruence|]. reflexivity.
    + eexists. split; [reflexivity|]. change (m_int (g_row ?x) (c_slot c)) with (v_int (look c x)). rewrite look_set_slot. cbn [v_int].
      split; [exists (x_set (v_aux (look c g))); auto|discriminate].
Qed.

(* ---- rows that hold nothing ---- *)
Definition nothing (f : fn) (R : list row) : Prop :=
  match f with
  | FCountStar => wrap false (Z.of_nat (length R)) = 0
  | FCount es =>
      wrap false (Z.of_nat (length (filter (fun r => forallb (fun e : expr => match e r with None => false | _ => true end) es) R))) = 0
  | FSum _ e | FAvg e => nonnull e R = []
  | FMin _ e | FMax _ e | FMulti _ _ e => nonnull e R = []
  | FBits BAnd e => nonnull e R = []
  | FBits _ _ | FBuild _ => R = []
  | FConcat _ es | FConcatBy _ es _ => nonnull (row_text es) R = []
  end.

Lemma nothing_nil f : nothing f [].
Proof. destruct f; try reflexivity. destruct o; reflexivity. Qed.
Lemma nothing_app f a b : nothing f a -> nothing f b -> nothing f (a ++ b).
Proof.
  destruct f; cbn [nothing]; rewrite ?nonnull_app; try (intros -> ->; reflexivity).
  - rewrite app_length, Nat2Z.inj_add. intros A B. now rewrite wrap_zero.
  - rewrite filter_app, app_length, Nat2Z.inj_add. intros A B. now rewrite wrap_zero.
  - destruct o; rewrite ?nonnull_app; intros -> ->; reflexivity.
Qed.
Lemma serialize_nil t s : serialize t s = [] -> s = [].
Proof. destruct s; [reflexivity|]. cbn [serialize]. intros E. apply app_eq_nil in E. destruct E as [E _]. discriminate. Qed.
Lemma init_nothing c m rs : is_initialize c m = true -> acc (c_fn c) rs (m_int m (c_slot c)) -> nothing (c_fn c) rs.
Proof.
  unfold is_initialize. destruct (c_distinct c); [discriminate|]. intros Hi Ha.
  destruct (c_fn c) as [|es|uns e|e|t e|t e|o e|e|sep es|sep es keys|sum t e]; cbn [acc nothing] in *.
  - cbn [agg_spec] in Ha. rewrite Ha in Hi. change (to_signed 64 ?z) with (wrap false z) in Hi. destruct (wrap false _); congruence.
  - cbn [agg_spec] in Ha. rewrite Ha in Hi. change (to_signed 64 ?z) with (wrap false z) in Hi. destruct (wrap false _); congruence.
  - apply spec_sum in Ha. rewrite Ha in Hi. destruct (nonnull e rs); [reflexivity|discriminate].
  - rewrite Ha in Hi. destruct (nonnull e rs) as [|z l]; [reflexivity|]. cbn [length] in Hi. destruct (zsum _); discriminate.
  - apply spec_min in Ha. unfold extspec in Ha. destruct (nonnull e rs); [reflexivity|]. destruct Ha as (w & Ha & _). rewrite Ha in Hi. discriminate.
  - apply spec_max in Ha. unfold extspec in Ha. destruct (nonnull e rs); [reflexivity|]. destruct Ha as (w & Ha & _). rewrite Ha in Hi. discriminate.
  - destruct o; [destruct Ha as (l & Ha & _); rewrite Ha in Hi; discriminate| |destruct Ha as (l & Ha & _); rewrite Ha in Hi; discriminate].
    destruct (nonnull e rs); [reflexivity|]. destruct Ha as (l' & Ha & _). rewrite Ha in Hi. discriminate.
  - destruct Ha as (l & Ha & _). rewrite Ha in Hi. discriminate.
  - destruct Ha as (l & P & Ha). rewrite Ha in Hi. destruct (joined_form sep l) as [E|(s & E)]; rewrite E in Hi; [|discriminate].
    apply joined_none in E. subst. now apply Permutation_sym, Permutation_nil in P.
  - destruct Ha as (l & P & Ha). rewrite Ha in Hi. destruct (joined_form sep l) as [E|(s & E)]; rewrite E in Hi; [|discriminate].
    apply joined_none in E. subst. now apply Permutation_sym, Permutation_nil in P.
  - destruct Ha as (s & N & M & Ha). rewrite Ha in Hi. destruct (serialize t s) eqn:E; [|discriminate]. apply serialize_nil in E.
    now apply (members_nil _ _ M).
Qed.
Lemma filter_text_nil es R : nonnull (row_text es) R = [] -> filter (has_text es) R = [].
Proof. rewrite nonnull_tx. apply map_eq_nil. Qed.
Lemma nothing_run f rs R v : nothing f rs -> run f R v -> run f (rs ++ R) v.
Proof.
  destruct f as [|es|uns e|e|t e|t e|o e|e|sep es|sep es keys|sum t e]; cbn [nothing run]; intros Hn Hr.
  - cbn [agg_spec] in *. rewrite Hr, app_length, Nat2Z.inj_add. change (to_signed 64 ?z) with (wrap false z). now rewrite wrap_zero.
  - cbn [agg_spec] in *. rewrite Hr, filter_app, app_length, Nat2Z.inj_add. change (to_signed 64 ?z) with (wrap false z). now rewrite wrap_zero.
  - apply spec_sum. apply spec_sum in Hr. now rewrite nonnull_app, Hn.
  - now rewrite nonnull_app, Hn.
  - apply spec_min. apply spec_min in Hr. now rewrite nonnull_app, Hn.
  - apply spec_max. apply spec_max in Hr. now rewrite nonnull_app, Hn.
  - destruct o; [now rewrite Hn| |now rewrite Hn]. unfold bitsof, bset in *. rewrite nonnull_app, Hn. exact Hr.
  - now rewrite Hn.
  - cbn [agg_spec] in *. now rewrite nonnull_app, Hn.
  - now rewrite filter_app, (filter_text_nil _ _ Hn).
  - now rewrite nonnull_app, Hn.
Qed.
Lemma made_up c g R : v_int (look c g) = (match c_fn c with FCountStar | FCount _ => Some zero | _ => None end) ->
  v_aux (look c g) = aux0 -> nothing (c_fn c) R -> (match c_fn c with FMulti true _ _ => False | _ => True end) ->
  exists g', finalize true c g = Some g' /\ agg_spec (c_fn c) R (result c (g_row g')).
Proof.
  intros Ei Ea Hn Hm. unfold finalize, result.
  destruct (c_fn c) as [|es|uns e|e|t e|t e|o e|e|sep es|sep es keys|sum t e]; cbn [nothing] in Hn;
    change (m_int (g_row ?x) (c_slot c)) with (v_int (look c x)); change (m_fin (g_row ?x) (c_slot c)) with (v_fin (look c x)).
  - eexists. split; [reflexivity|]. change (m_int (g_row ?x) (c_slot c)) with (v_int (look c x)). rewrite Ei. cbn [agg_spec].
    change (to_signed 64 ?z) with (wrap false z). now rewrite Hn.
  - eexists. split; [reflexivity|]. change (m_int (g_row ?x) (c_slot c)) with (v_int (look c x)). rewrite Ei. cbn [agg_spec].
    change (to_signed 64 ?z) with (wrap false z). now rewrite Hn.
  - eexists. split; [reflexivity|]. change (m_int (g_row ?x) (c_slot c)) with (v_int (look c x)). apply spec_sum. now rewrite Hn.
  - eexists. split; [reflexivity|]. change (m_fin (g_row ?x) (c_slot c)) with (v_fin (look c x)). apply spec_avg. rewrite look_set_fin, look_slot, Ei, Hn. reflexivity.
  - eexists. split; [reflexivity|]. change (m_int (g_row ?x) (c_slot c)) with (v_int (look c x)). apply spec_min. rewrite Hn. exact Ei.
  - eexists. split; [reflexivity|]. change (m_int (g_row ?x) (c_slot c)) with (v_int (look c x)). apply spec_max. rewrite Hn. exact Ei.
  - eexists. split; [reflexivity|]. change (m_int (g_row ?x) (c_slot c)) with (v_int (look c x)). rewrite look_set_slot, look_bits_val, Ea. cbn [x_bits aux0 fst v_int].
    destruct o; [now subst R| |now subst R]. apply spec_and. unfold andspec. now rewrite Hn.
  - eexists. split; [reflexivity|]. change (m_int (g_row ?x) (c_slot c)) with (v_int (look c x)). rewrite look_set_slot, look_bits_val, Ea. cbn [x_bits aux0 fst v_int].
    now subst R.
  - eexists. split; [reflexivity|]. change (m_int (g_row ?x) (c_slot c)) with (v_int (look c x)). exists []. rewrite Hn. split; [constructor|exact Ei].
  - eexists. split; [reflexivity|]. rewrite look_x, Ea. cbn [x_batch aux0]. change (m_int (g_row ?x) (c_slot c)) with (v_int (look c x)). rewrite look_set_slot.
    exists []. split; [|split; [constructor|reflexivity]]. change (Permutation (filter (has_text es) R) []). now rewrite (filter_text_nil _ _ Hn).
  - cbn [negb]. rewrite look_slot, Ei. eexists. split; [reflexivity|]. change (m_fin (g_row ?x) (c_slot c)) with (v_fin (look c x)).
    rewrite look_set_slot, look_set_fin. cbn [v_fin]. rewrite look_x, Ea. cbn [x_set aux0]. destruct sum; [contradiction|].
    exists []. split; [constructor|]. rewrite Hn. split; [tauto|reflexivity].
Qed.

(* ---- a call only changes its own slot ---- *)
Definition off (c : call) (g g' : grp) : Prop :=
  m_src (g_row g') = m_src (g_row g) /\
  forall j, j <> c_slot c -> m_int (g_row g') j = m_int (g_row g) j /\ m_fin (g_row g') j = m_fin (g_row g) j /\ g_aux g' j = g_aux g j.
Lemma off_refl c g : off c g g.
Proof. split; auto. Qed.
Lemma off_trans c a b d : off c a b -> off c b d -> off c a d.
Proof.
  intros [A B] [C D]. split; [congruence|]. intros j Hj. destruct (B j Hj) as (? & ? & ?), (D j Hj) as (? & ? & ?). repeat split; congruence.
Qed.
Lemma off_slot c v g : off c g (set_slot c v g).
Proof. split; [reflexivity|]. intros j Hj. unfold set_slot. cbn. rewrite slot_set_other by exact Hj. auto. Qed.
Lemma off_fin c v g : off c g (set_fin c v g).
Proof. split; [reflexivity|]. intros j Hj. unfold set_fin. cbn. rewrite slot_set_other by exact Hj. auto. Qed.
Lemma off_x c v g : off c g (xset c v g).
Proof. split; [reflexivity|]. intros j Hj. unfold xset. cbn. rewrite slot_set_other by exact Hj. auto. Qed.
Ltac off_tac :=
  unfold set_bits, set_set, add_batch, or_slot;
  repeat match goal with
  | |- off _ ?g ?g => apply off_refl
  | |- off _ ?g (set_slot _ _ ?g) => apply off_slot
  | |- off _ ?g (set_fin _ _ ?g) => apply off_fin
  | |- off _ ?g (xset _ _ ?g) => apply off_x
  | |- off ?c ?g (set_slot ?c ?v ?x) => apply (off_trans c g x); [|apply off_slot]
  | |- off ?c ?g (set_fin ?c ?v ?x) => apply (off_trans c g x); [|apply off_fin]
  | |- off ?c ?g (xset ?c ?v ?x) => apply (off_trans c g x); [|apply off_x]
  | |- context [match ?x with _ => _ end] => destruct x
  end.
Lemma off_init b c g : off c g (initialize b c g).
Proof. unfold initialize. destruct (c_fn c); destruct b; off_tac. Qed.
Ltac split_some H :=
  repeat match type of H with
  | context [match ?x with _ => _ end] => destruct x
  end; try discriminate H; injection H as <-; off_tac.
Lemma off_update c r g g' : update c r g = Some g' -> off c g g'.
Proof. unfold update. intros E. destruct (c_fn c); split_some E. Qed.
Lemma off_merge c b m g g' : merge c b m g = Some g' -> off c g g'.
Proof.
  unfold merge. destruct (c_distinct c); [apply off_update|]. intros E. destruct (c_fn c); split_some E.
Qed.
Lemma off_final b c g g' : finalize b c g = Some g' -> off c g g'.
Proof. unfold finalize. intros E. destruct (c_fn c); split_some E. Qed.

Lemma off_look c d g g' : off c g g' -> c_slot d <> c_slot c -> look d g' = look d g.
Proof. intros [_ O0] Ne. destruct (O0 (c_slot d) Ne) as (A & B & C). unfold look. now rewrite A, B, C. Qed.

(* all calls of a node, one after the other *)
Lemma all_calls_ok (f : call -> grp -> option grp) (P Q : call -> view -> Prop) cs :
  (forall c g g', f c g = Some g' -> off c g g') -> NoDup (map c_slot cs) ->
  (forall c g, In c cs -> P c (look c g) -> exists g', f c g = Some g' /\ Q c (look c g')) ->
  forall g, (forall c, In c cs -> P c (look c g)) ->
  exists g', all_calls f cs g = Some g' /\ m_src (g_row g') = m_src (g_row g) /\ (forall c, In c cs -> Q c (look c g')) /\
    (forall d, ~ In (c_slot d) (map c_slot cs) -> look d g' = look d g).
Proof.
  intros Hoff. induction cs as [|c cs IH]; intros N Hs g Hp; cbn [all_calls].
  - exists g. repeat split; auto. intros c [].
  - cbn [map] in N. inversion N as [|? ? Hnin N']; subst.
    destruct (Hs c g (or_introl eq_refl) (Hp c (or_introl eq_refl))) as (g1 & E1 & Q1). rewrite E1.
    pose proof (Hoff c g g1 E1) as O1.
    destruct (IH N') with (g := g1) as (g' & E' & S' & Q' & F').
    + intros d g0 Hd. apply Hs. right; exact Hd.
    + intros d Hd. rewrite (off_look c d g g1 O1); [apply Hp; right; exact Hd|]. intros E. apply Hnin. rewrite <- E. now apply in_map.
    + exists g'. split; [exact E'|]. split; [rewrite S'; apply O1|]. split.
      * intros d [<-|Hd]; [rewrite F' by exact Hnin; exact Q1|apply Q', Hd].
      * intros d Hd. cbn [map In] in Hd. rewrite F' by tauto. apply (off_look c d g g1 O1). intros E. apply Hd. auto.
Qed.
Lemma init_all_ok b cs : NoDup (map c_slot cs) -> forall g,
  m_src (g_row (fold_left (fun g c => initialize b c g) cs g)) = m_src (g_row g) /\
  (forall c, In c cs -> exists gi, look c gi = look c g /\ look c (fold_left (fun g c => initialize b c g) cs g) = look c (initialize b c gi)) /\
  (forall d, ~ In (c_slot d) (map c_slot cs) -> look d (fold_left (fun g c => initialize b c g) cs g) = look d g).
Proof.
  induction cs as [|c cs IH]; intros N g; cbn [fold_left]; [repeat split; auto; intros c []|].
  cbn [map] in N. inversion N as [|? ? Hnin N']; subst. destruct (IH N' (initialize b c g)) as (S1 & I1 & F1).
  pose proof (off_init b c g) as O1. split; [rewrite S1; apply O1|]. split.
  - intros d [<-|Hd].
    + exists g. split; [reflexivity|]. apply F1, Hnin.
    + destruct (I1 d Hd) as (gi & E1 & E2). exists gi. split; [|exact E2]. rewrite E1. apply (off_look c d _ _ O1).
      intros E. apply Hnin. rewrite <- E. now apply in_map.
  - intros d Hd. cbn [map In] in Hd. rewrite F1 by tauto. apply (off_look c d _ _ O1). intros E. apply Hd. auto.
Qed.
