(* The plan of an index selects the rows it should. *)
From Coq Require Import List ZArith Lia Bool.
From Verif Require Import Common.Bytes Common.KV Key.Model Key.Spec Key.ProofsKey Key.ProofsTop.
From Verif Require Import Like.Model Like.Spec Like.Proofs2 Path.Model Path.Spec Path.Scan Path.Hit Path.Tuples Path.Loop Path.Bounds Path.Plan.
Import ListNotations.
Local Open Scope Z_scope.

Section Good.
Variables (E : env) (cs : list cond) (m : fmap).
Hypothesis (OK : Forall (cond_ok E) cs) (APART : rows_apart cs) (INV : inv E cs m) (LF : like_first E cs) (BA : bounds_apart E cs).
Notation t_ := (ct E).
Notation agree := (agree E).
Notation okv := (okv E).
Notation tkey := (tkey E).
Notation cmpT := (cmpT E).
Notation joint := (joint E cs m).

Definition all_recs (k : kst) : list krange := match k_recs k with [] => [(k_l k, k_r k)] | l => l end.
Definition ranges_of (k : kst) : list krange := match k_recs k with [] => [(k_l k, k_r k)] | l => dedup [] l end.
Lemma ranges_props k : NoDup (map fst (ranges_of k)) /\ (forall rg, In rg (ranges_of k) -> In rg (all_recs k)) /\
  (forall rg, In rg (all_recs k) -> exists rg', In rg' (ranges_of k) /\ fst rg' = fst rg).
Proof.
  unfold ranges_of, all_recs. destruct (k_recs k) as [|x l].
  - split; [repeat constructor; auto|]. split; auto. intros rg H. eauto.
  - destruct (dedup_props (x :: l) []) as (A & B & C). split; auto. split; [intros rg H; apply A; auto|].
    intros rg H. destruct (C rg H) as [[]|X]; auto.
Qed.
Lemma lefts_recs k : map fst (all_recs k) = lefts k.
Proof. unfold all_recs, lefts. destruct (k_recs k); auto. Qed.

(* the ranges as a function of the tuples, when the records are one function of the left keys *)
Lemma ranges_image k T (g : list value -> krange) :
  (forall rg, In rg (all_recs k) -> exists t, In t T /\ rg = g t) ->
  (forall t, In t T -> In (g t) (all_recs k)) ->
  (forall t u, In t T -> In u T -> fst (g t) = fst (g u) -> g t = g u) ->
  (forall rg, In rg (ranges_of k) -> exists t, In t T /\ rg = g t) /\ (forall t, In t T -> In (g t) (ranges_of k)) /\ NoDup (ranges_of k).
Proof.
  intros A B C. destruct (ranges_props k) as (X & Y & Z). split; [intros; apply A; auto|]. split.
  - intros t Ht. destruct (Z _ (B t Ht)) as (rg & R1 & R2). destruct (A rg (Y rg R1)) as (u & U1 & ->). rewrite (C u t U1 Ht R2) in R1. auto.
  - eapply NoDup_map_inv; eauto.
Qed.

Lemma key_whole r P X : index_row E r -> avail E = P -> Forall2 okv P X -> entry_key E r = tkey P X <-> cmpT r P X = Eq.
Proof.
  intros I A F. assert (A' : avail E = P ++ []) by (rewrite app_nil_r; auto). split.
  - intros Q. apply (key_prefix E r P [] X I A' F). exists []. rewrite app_nil_r. auto.
  - intros C. pose proof (key_cmp E r P [] X [] I A' F) as K. rewrite C in K. cbn in K. rewrite app_nil_r in K. apply bcompare_eq in K. auto.
Qed.
Lemma closed_prefix l k : above false l k /\ below false l k <-> prefix_of l k.
Proof.
  unfold above, below. split.
  - intros [[->|A] [B|[B|B]]]; auto; try (exists k; auto; fail); [subst; exists k; auto|].
    destruct (bcompare l k) eqn:Q; [| |congruence].
    + apply bcompare_eq in Q. subst. exists []. rewrite app_nil_r. auto.
    + exfalso. apply B. apply gt_lt. auto.
  - intros P. split; [|auto]. right. destruct P as [x ->]. apply prefix_le.
Qed.

(* one side of a range *)
Lemma side lower f fr_expr open ids vs D rest (cutb : bool) : avail E = D ++ f :: rest ->
  (vs = [] \/ bsrc E cs (dir_op lower) f fr_expr open ids vs) -> (cutb = true -> full E D ids vs = true) ->
  exists F V rest', f :: rest = F ++ rest' /\ Forall2 okv F V /\ bound_bytes E (length D) f ids vs = tenc (map t_ F) V /\
    (cutb && open = true -> F <> []) /\
    (forall r, index_row E r -> selected E cs r = true -> goodc lower (cutb && open) (cmpT r F V)) /\
    (cutb = true -> forall n c r, fr_expr = Some n -> nth_error cs n = Some c -> index_row E r ->
       goodc lower (cutb && open) (cmpT r F V) -> holds E r c = true).
Proof.
  intros AV [->|B] FU.
  - destruct cutb; [specialize (FU eq_refl); discriminate|].
    exists [], [], (f :: rest). split; auto. split; [constructor|]. split; auto. split; [discriminate|].
    split; [intros; destruct lower; cbn; discriminate|discriminate].
  - destruct (bound_src E cs lower f fr_expr open ids vs D rest B AV) as (F & V & rest' & n & c & A1 & A2 & A3 & A4 & A5 & A6 & A7 & A8).
    exists F, V, rest'. do 3 (split; [auto|]). split; [auto|]. destruct cutb; cbn [andb].
    + specialize (A8 (FU eq_refl)). split.
      * intros r I S. apply A8; auto. eapply sel_at; eauto.
      * intros _ n' c' r Q C I G. assert (n' = n) by congruence. subst. assert (c' = c) by congruence. subst. apply A8; auto.
    + split; [|discriminate]. intros r I S. apply A7; auto. eapply sel_at; eauto.
Qed.

Lemma tkey_app D F t V : length t = length D -> tkey D t ++ tenc (map t_ F) V = tkey (D ++ F) (t ++ V).
Proof. intros L. unfold Loop.tkey. rewrite map_app, tenc_app by (rewrite map_length; auto). rewrite app_assoc. auto. Qed.

Lemma nil_agree r t : length t = 0%nat -> agree r [] t.
Proof. destruct t; [constructor|discriminate]. Qed.

Theorem plan_good order : exists D rest rows T g inb, good E cs m order (make_plan E order m) D rest rows T g inb.
Proof.
  destruct (loops E cs m OK APART INV LF (avail E) [] ns0 _ _ eq_refl (joint0 E cs m)) as (k' & RL & FIN). cbn [length] in RL.
  unfold make_plan. rewrite RL. set (s' := normal_loop E m (avail E) ns0) in *.
  destruct FIN as [D T [rest AV] J|D T s k f fr rest J AV NF M TY QS QK|D T s k f fr rest J AV NF M TY KR QS QK].
  - (* keys *)
    pose proof (j_tinv _ _ _ _ _ _ _ J) as TI. destruct (j_flags _ _ _ _ _ _ _ J) as (FL1 & FL2 & FL3 & FL4).
    assert (TL : forall t, In t T -> length t = length D) by (intros; eapply tlen; eauto).
    assert (TF : forall t, In t T -> Forall2 okv D t) by (pose proof (ti_len _ _ _ _ _ _ TI) as X; rewrite Forall_forall in X; auto).
    assert (DA : incl D (avail E)) by apply (ti_av _ _ _ _ _ _ TI).
    rewrite (j_lcnt _ _ _ _ _ _ _ J), (j_rcnt _ _ _ _ _ _ _ J), FL1, FL2, FL3, FL4.
    destruct D as [|d D].
    + (* no range *)
      cbn [length Nat.eqb andb negb].
      assert (T0 : exists t, In t T) by (pose proof (j_pos _ _ _ _ _ _ _ J); destruct T as [|t T]; [cbn in *; lia|exists t; left; auto]).
      exists [], rest, (n_rows s'), T, (fun _ => ([], [])), (fun _ => True).
      constructor; cbn [p_ranges p_lopen p_ropen p_get p_sort p_cut map fst snd]; auto.
      * intros rg [<-|[]]. destruct T0 as [t Ht]. exists t. auto.
      * intros. left. auto.
      * repeat constructor; auto.
      * intros t r Ht I. unfold covers. cbn. unfold above, below. split; [|auto]. intros _. split; auto. apply nil_agree. apply (TL t Ht).
      * intros n c r t Hn C Ht I A _. eapply (j_cut _ _ _ _ _ _ _ J); eauto.
      * exists s'. split; auto. rewrite (j_eq _ _ _ _ _ _ _ J). auto.
    + rewrite (proj2 (Nat.eqb_neq (length (d :: D)) 0)) by discriminate. cbn [andb negb]. set (DD := d :: D) in *.
      fold (ranges_of k').
      assert (RI : (forall rg, In rg (ranges_of k') -> exists t, In t T /\ fst rg = tkey DD t) /\
                   (forall t, In t T -> exists rg, In rg (ranges_of k') /\ fst rg = tkey DD t)).
      { destruct (ranges_props k') as (X & Y & Z). pose proof (lefts_recs k') as LR. rewrite (j_keys _ _ _ _ _ _ _ J) in LR. split.
        - intros rg H. assert (In (fst rg) (map fst (all_recs k'))) by (apply in_map; auto). rewrite LR in H0. apply in_map_iff in H0.
          destruct H0 as (t & A & B). eauto.
        - intros t Ht. assert (In (tkey DD t) (map fst (all_recs k'))) by (rewrite LR; apply in_map; auto). apply in_map_iff in H.
          destruct H as (rg & A & B). destruct (Z rg B) as (rg' & P & Q). exists rg'. split; auto. congruence. }
      destruct RI as [R1 R2].
      exists DD, rest, (n_rows s'), T, (fun t => (tkey DD t, tkey DD t)), (fun _ => True).
      constructor; cbn [p_ranges p_lopen p_ropen p_get p_sort p_cut]; auto.
      * intros rg H. apply in_map_iff in H. destruct H as (x & <- & H). destruct (R1 x H) as (t & A & B). exists t. rewrite B. auto.
      * intros t Ht. destruct (R2 t Ht) as (x & A & B). apply in_map_iff. exists x. rewrite B. auto.
      * destruct (ranges_props k') as (X & _ & _). apply (NoDup_map_inv fst). rewrite map_map. cbn. auto.
      * congruence.
      * intros t r Ht I. unfold covers. cbn [p_get p_lopen p_ropen fst snd].
        rewrite agree_cmp by auto. 
        destruct ((length DD =? length (e_cols E))%nat && match e_type E with TKey => false | _ => true end) eqn:G.
        -- apply andb_true_iff in G. destruct G as [G1 G2]. apply Nat.eqb_eq in G1.
           assert (AC : avail E = e_cols E) by (unfold avail; destruct (e_type E); try discriminate; apply app_nil_r).
           assert (RN : rest = []).
           { assert (L : length (avail E) = (length DD + length rest)%nat) by (rewrite AV, app_length; auto). rewrite AC in L. destruct rest; auto. cbn [length] in *. lia. }
           rewrite RN, app_nil_r in AV. rewrite key_whole by auto. tauto.
        -- rewrite closed_prefix. rewrite (key_prefix E r DD rest t) by auto. tauto.
      * intros n c r t Hn C Ht I A _. eapply (j_cut _ _ _ _ _ _ _ J); eauto.
      * exists s'. split; auto. apply (j_eq _ _ _ _ _ _ _ J).
  - (* a range *)
    pose proof (j_tinv _ _ _ _ _ _ _ J) as TI.
    assert (TL : forall t, In t T -> length t = length D) by (intros; eapply tlen; eauto).
    assert (TF : forall t, In t T -> Forall2 okv D t) by (pose proof (ti_len _ _ _ _ _ _ TI) as X; rewrite Forall_forall in X; auto).
    assert (DA : incl D (avail E)) by apply (ti_av _ _ _ _ _ _ TI).
    assert (AF : In f (avail E)) by (rewrite AV; apply in_app_iff; right; left; auto).
    pose proof (INV f fr AF M) as SR. unfold src in SR. rewrite TY in SR. destruct SR as (_ & _ & SL & SRR).
    destruct (range_shape E cs m INV BA D s k T f fr rest J AV M TY) as (lcut & rcut & RC & RLO & RRO & RF1 & RF2 & REI & REQ & RN).
    rewrite <- QS in *. rewrite RLO, RRO, REI. cbn [andb].
    destruct (Nat.eqb (n_lcnt s') 0 && Nat.eqb (n_rcnt s') 0) eqn:NN.
    + apply andb_true_iff in NN. destruct NN as [N1 N2]. apply Nat.eqb_eq in N1, N2. destruct (RN N1 N2) as (-> & L0 & R0).
      rewrite L0 in RF1. rewrite R0 in RF2. destruct lcut; [specialize (RF1 eq_refl); discriminate|]. destruct rcut; [specialize (RF2 eq_refl); discriminate|].
      assert (T0 : exists t, In t T) by (pose proof (j_pos _ _ _ _ _ _ _ J); destruct T as [|t T]; [cbn in *; lia|exists t; left; auto]).
      exists [], (f :: rest), (n_rows s), T, (fun _ => ([], [])), (fun _ => True).
      constructor; cbn [p_ranges p_lopen p_ropen p_get p_sort p_cut map fst snd]; auto.
      * intros rg [<-|[]]. destruct T0 as [t Ht]. exists t. auto.
      * intros. left. auto.
      * repeat constructor; auto.
      * intros t r Ht I. unfold covers. cbn. unfold above, below. split; [|auto]. intros _. split; auto. apply nil_agree. apply (TL t Ht).
      * intros n c r t Hn C Ht I A _. rewrite RC in Hn. eapply (j_cut _ _ _ _ _ _ _ J); eauto.
      * exists s'. split; auto.
    + clear NN RN.
      destruct (side true f (fr_lexpr fr) (fr_lopen fr) (fr_lids fr) (fr_left fr) D rest lcut AV SL RF1) as (F & V & r1 & L1 & L2 & L3 & L4 & L5 & L6).
      destruct (side false f (fr_rexpr fr) (fr_ropen fr) (fr_rids fr) (fr_right fr) D rest rcut AV SRR RF2) as (G & W & r2 & G1 & G2 & G3 & G4 & G5 & G6).
      set (lo := lcut && fr_lopen fr) in *. set (ro := rcut && fr_ropen fr) in *.
      set (g := fun t => (tkey D t ++ tenc (map t_ F) V, tkey D t ++ tenc (map t_ G) W)).
      assert (RE : all_recs k' = map (fun l => range_func E (length D) f fr (l, l)) (lefts k)).
      { rewrite QK. unfold all_recs, range_step, lefts. pose proof (j_k0 _ _ _ _ _ _ _ J) as K0. destruct (k_recs k) as [|x xs].
        - cbn. rewrite K0; auto.
        - cbn [k_recs map]. f_equal. rewrite map_map. auto. }
      rewrite (j_keys _ _ _ _ _ _ _ J), map_map in RE.
      assert (RE' : all_recs k' = map g T).
      { rewrite RE. apply map_ext. intros t. unfold range_func, g. cbn [fst snd]. rewrite L3, G3. auto. }
      assert (INJ : forall t u, In t T -> In u T -> fst (g t) = fst (g u) -> g t = g u).
      { intros t u _ _ H. unfold g in *. cbn [fst] in H. apply app_inv_tail in H. rewrite H. auto. }
      destruct (ranges_image k' T g) as (R1 & R2 & R3); auto.
      { intros rg H. rewrite RE' in H. apply in_map_iff in H. destruct H as (t & <- & H). eauto. }
      { intros t Ht. rewrite RE'. apply in_map. auto. }
      assert (ID : map (fun rg : krange => (fst rg, snd rg)) (ranges_of k') = ranges_of k').
      { clear. induction (ranges_of k') as [|[a b] l IH]; cbn; f_equal; auto. }
      change (map (fun rg : list Z * list Z => (fst rg, snd rg)) (match k_recs k' with [] => [(k_l k', k_r k')] | k0 :: l => dedup [] (k0 :: l) end))
        with (map (fun rg : krange => (fst rg, snd rg)) (ranges_of k')). rewrite ID.
      exists D, (f :: rest), (n_rows s), T, g, (fun r => goodc true lo (cmpT r F V) /\ goodc false ro (cmpT r G W)).
      constructor; cbn [p_ranges p_lopen p_ropen p_get p_sort p_cut]; auto.
      * intros t u Ht Hu H. unfold g. rewrite H. auto.
      * intros t r Ht I. unfold covers. cbn [p_get p_lopen p_ropen]. unfold g. cbn [fst snd]. rewrite !tkey_app by auto.
        assert (A1 : avail E = (D ++ F) ++ r1) by (rewrite <- app_assoc, <- L1; auto).
        assert (A2 : avail E = (D ++ G) ++ r2) by (rewrite <- app_assoc, <- G1; auto).
        assert (FF : Forall2 okv (D ++ F) (t ++ V)) by (apply Forall2_app; auto). assert (FG : Forall2 okv (D ++ G) (t ++ W)) by (apply Forall2_app; auto).
        assert (OF : lo = true -> D ++ F <> []) by (intros X Y; apply app_eq_nil in Y; apply (L4 X); tauto).
        assert (OG : ro = true -> D ++ G <> []) by (intros X Y; apply app_eq_nil in Y; apply (G4 X); tauto).
        rewrite (above_iff E r (D ++ F) r1 (t ++ V) lo I A1 FF OF), (below_iff E r (D ++ G) r2 (t ++ W) ro I A2 FG OG).
        rewrite !cmpT_app by auto. rewrite agree_cmp by auto. unfold goodc.
        destruct (cmpT r D t); [|destruct ro; intuition congruence|destruct lo; intuition congruence]. tauto.
      * intros n c r t Hn C Ht I A [B1 B2]. rewrite RC in Hn.
        assert (OLD : In n (n_cut s) -> holds E r c = true) by (intros; eapply (j_cut _ _ _ _ _ _ _ J); eauto).
        assert (LEFT : In n ((if lcut then opt_cons (fr_lexpr fr) else fun l => l) (n_cut s)) -> holds E r c = true).
        { destruct lcut; auto. unfold opt_cons. destruct (fr_lexpr fr) as [x|] eqn:X; auto. intros [<-|H]; auto. eapply L6; eauto. }
        destruct rcut; auto. unfold opt_cons in Hn. destruct (fr_rexpr fr) as [x|] eqn:X; auto. destruct Hn as [<-|H]; auto. eapply G6; eauto.
      * exists s'. split; auto.
  - (* a LIKE prefix *)
    pose proof (j_tinv _ _ _ _ _ _ _ J) as TI. destruct (j_flags _ _ _ _ _ _ _ J) as (FL1 & FL2 & FL3 & FL4).
    assert (TF : forall t, In t T -> Forall2 okv D t) by (pose proof (ti_len _ _ _ _ _ _ TI) as X; rewrite Forall_forall in X; auto).
    assert (TL : forall t, In t T -> length t = length D) by (intros; eapply tlen; eauto).
    assert (DA : incl D (avail E)) by apply (ti_av _ _ _ _ _ _ TI).
    assert (AF : In f (avail E)) by (rewrite AV; apply in_app_iff; right; left; auto).
    pose proof (INV f fr AF M) as SR. unfold src in SR. rewrite TY in SR. destruct SR as (n0 & p0 & s0 & C0 & IL & EQ & _).
    pose proof (cond_at E cs OK n0 _ C0) as CK. cbn in CK. destruct CK as (CT & NN & _ & pc & PC & CH & GB).
    assert (NS : no_nul s0) by (pose proof (like_const p0 NN) as X; rewrite IL in X; auto).
    assert (KK := j_keys _ _ _ _ _ _ _ J). unfold lefts in KK. rewrite KR in KK.
    destruct T as [|t [|]]; try discriminate. injection KK as KL. pose proof (j_k0 _ _ _ _ _ _ _ J KR) as KRR.
    rewrite EQ in QK. cbn [hd prefix_bytes] in QK. unfold app_string_prefix in QK.
    assert (N1 : n_lcnt s' = S (n_cnt s) /\ n_rcnt s' = S (n_cnt s) /\ n_eqin s' = false /\ n_lopen s' = false /\ n_ropen s' = false /\ n_cut s' = n_cut s /\ n_eq s' = n_eq s).
    { rewrite QS. unfold normal_eq. rewrite TY. cbn. rewrite andb_false_r. auto 10. }
    destruct N1 as (-> & -> & -> & -> & -> & NC & NE). cbn [Nat.eqb andb negb]. rewrite QK. cbn [k_recs k_l k_r map fst snd].
    rewrite KRR, KL.
    assert (KEY : forall r, index_row E r -> prefix_of (tkey D t ++ s0) (entry_key E r) <-> agree r D t /\ (exists w, r f = Some (VStr w) /\ prefix_of s0 w)).
    { intros r I. assert (Ht : In t [t]) by (left; auto). rewrite agree_cmp by auto.
      destruct (row_at E r f I AF) as [RV RO]. unfold Hit.okv in RO. rewrite CT in RO. destruct (rval r f) as [z|w] eqn:RW; [destruct RO|]. cbn in RO.
      pose proof (key_prefix E r D (f :: rest) t I AV (TF t Ht)) as KP.
      assert (SP : forall x, entry_key E r = tkey D t ++ x -> x = w ++ 0 :: tenc (map t_ rest) (rvals r rest)).
      { intros x Q. assert (CE : cmpT r D t = Eq) by (apply KP; exists x; auto). 
        pose proof (key_cmp E r D (f :: rest) t x I AV (TF t Ht)) as KC. rewrite <- Q, bcompare_refl, CE in KC. symmetry in KC. apply bcompare_eq in KC.
        rewrite KC. cbn [map rvals tenc]. rewrite RW. cbn [fenc]. rewrite <- app_assoc. auto. }
      split.
      - intros [x Q]. rewrite <- app_assoc in Q. specialize (SP _ Q). split; [apply KP; exists (s0 ++ x); auto|].
        exists w. split; auto. apply (nul_prefix s0 w (tenc (map t_ rest) (rvals r rest))); auto. exists x. auto.
      - intros [CE (w' & W1 & W2)]. assert (w' = w) by congruence. subst w'. apply KP in CE. destruct CE as [x Q]. rewrite Q. specialize (SP _ Q).
        apply (nul_prefix s0 w (tenc (map t_ rest) (rvals r rest)) NS RO) in W2. destruct W2 as [y Y]. exists y. rewrite SP, Y, app_assoc. auto. }
    exists D, (f :: rest), (n_rows s), [t], (fun t => (tkey D t ++ s0, tkey D t ++ s0)), (fun r => exists w, r f = Some (VStr w) /\ prefix_of s0 w).
    constructor; cbn [p_ranges p_lopen p_ropen p_get p_sort p_cut]; auto.
    + intros rg [<-|[]]. exists t. split; [left|]; auto.
    + intros u [<-|[]]. left. auto.
    + repeat constructor; auto.
    + intros u v [<-|[]] [<-|[]] _. auto.
    + intros u r [<-|[]] I. unfold covers. cbn [p_get p_lopen p_ropen fst snd]. rewrite closed_prefix. apply KEY. auto.
    + intros r I S. pose proof (sel_at E cs r n0 _ S C0) as H. cbn in H. destruct (row_at E r f I AF) as [RV RO]. rewrite RV in H.
      unfold Hit.okv in RO. rewrite CT in RO. destruct (rval r f) as [z|w]; [destruct RO|]. exists w. split; auto. cbn in H.
      assert (SV : served_ok p0 w).
      { destruct (e_cs E) eqn:CS; try (apply (served _ w p0) in H; [exact H|discriminate]).
        subst p0. apply served_gbk; auto. }
      unfold served_ok in SV. rewrite IL in SV. exact SV.
    + rewrite NC. intros n c r u Hn C Hu I A _. eapply (j_cut _ _ _ _ _ _ _ J); eauto.
    + exists s'. split; auto. rewrite NE. apply (j_eq _ _ _ _ _ _ _ J).
Qed.
End Good.
