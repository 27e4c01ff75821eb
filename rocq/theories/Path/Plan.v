(* What the ranges of an index mean for the rows. *)
From Coq Require Import List ZArith Lia Bool.
From Verif Require Import Common.Bytes Common.KV Key.Model Key.Spec Key.ProofsKey Key.ProofsTop.
From Verif Require Import Like.Model Like.Spec Like.Proofs2 Path.Model Path.Spec Path.Scan Path.Hit Path.Tuples Path.Loop Path.Bounds.
Import ListNotations.
Local Open Scope Z_scope.

Section Plan.
Variables (E : env) (cs : list cond) (m : fmap).
Hypothesis (OK : Forall (cond_ok E) cs) (APART : rows_apart cs) (INV : inv E cs m) (LF : like_first E cs) (BA : bounds_apart E cs).
Notation t_ := (ct E).
Notation agree := (agree E).
Notation okv := (okv E).
Notation tkey := (tkey E).
Notation cmpT := (cmpT E).
Notation joint := (joint E cs m).

Lemma run_split av ids : exists a b, av = firstn (run av ids) ids ++ a /\ ids = firstn (run av ids) ids ++ b.
Proof.
  revert ids. induction av as [|x av IH]; intros [|y ids]; cbn; eauto.
  destruct (Nat.eqb_spec x y) as [->|N]; cbn; eauto. destruct (IH ids) as (a & b & A & B). exists a, b. rewrite <- A, <- B. auto.
Qed.
Lemma skip_app {A} (D l : list A) : skipn (length D) (D ++ l) = l.
Proof. induction D; cbn; auto. Qed.
Lemma row_bytes_tenc F V : Forall2 okv F V -> forall W, row_bytes E F (V ++ W) = tenc (map t_ F) V.
Proof. induction 1 as [|f v F V H F2 IH]; intros W; cbn; auto. rewrite IH, enc_ok by auto. auto. Qed.

Definition full (D : list nat) (ids : list nat) (vs : list value) : bool :=
  match vs with [] => false | [_] => true | _ => Nat.eqb (run (skipn (length D) (avail E)) ids) (length ids) end.

Lemma bound_src lower f n open ids vs D rest : bsrc E cs (dir_op lower) f n open ids vs -> avail E = D ++ f :: rest ->
  exists F V rest' n' c, f :: rest = F ++ rest' /\ F <> [] /\ Forall2 okv F V /\ bound_bytes E (length D) f ids vs = tenc (map t_ F) V /\
    n = Some n' /\ nth_error cs n' = Some c /\
    (forall r, index_row E r -> holds E r c = true -> goodc lower false (cmpT r F V)) /\
    (full D ids vs = true -> forall r, index_row E r -> holds E r c = true <-> goodc lower open (cmpT r F V)).
Proof.
  intros (k & o & -> & O & B) AV. assert (AF : In f (avail E)) by (rewrite AV; apply in_app_iff; right; left; auto).
  destruct B as [(v & -> & OV & C)|(q & -> & NQ & F2 & C)].
  - exists [f], [v], rest, k, (CCmp o f (Some v)). split; auto. split; [discriminate|]. split; [repeat constructor; auto|].
    split; [cbn; rewrite app_nil_r; apply enc_ok; auto|]. split; auto. split; auto.
    assert (G : forall r, index_row E r -> holds E r (CCmp o f (Some v)) = true <-> goodc lower open (cmpT r [f] [v])).
    { intros r I. destruct (row_at E r f I AF) as [A _]. cbn [holds cmp_true]. unfold cmp_true. rewrite A. unfold Bounds.cmpT. cbn.
      rewrite (vc_anti (t_ f) v). rewrite good_test by eauto. destruct (value_compare (t_ f) v (rval r f)); tauto. }
    split; auto. intros r I H. apply G in H; auto. destruct lower, open; cbn in *; congruence.
  - assert (L2 : exists v w vs', vs = v :: w :: vs').
    { apply F2_len in F2. destruct q; [congruence|]. destruct vs as [|v [|w vs']]; cbn in F2; try lia. eauto. }
    destruct L2 as (v & w & vs' & Q). set (ids := f :: q) in *. set (kk := run (skipn (length D) (avail E)) ids).
    assert (SK : skipn (length D) (avail E) = f :: rest) by (rewrite AV; apply skip_app).
    destruct (run_split (skipn (length D) (avail E)) ids) as (a & b & A & B). fold kk in A, B.
    assert (F2' := F2). rewrite B in F2'. apply Forall2_app_inv_l in F2'. destruct F2' as (V & W & FV & FW & VW).
    assert (CH : holds E = holds E) by auto.
    assert (HC : forall r, holds E r (CRow o ids (map Some vs)) = row_order (map t_ ids) o (map r ids) (map Some vs)).
    { intros r. cbn [holds]. destruct lower, o; cbn in O; try discriminate; auto. }
    assert (IN : incl (firstn kk ids) (avail E)).
    { rewrite AV. intros x Hx. apply in_app_iff. right. rewrite SK in A. rewrite A. apply in_app_iff. auto. }
    exists (firstn kk ids), V, a, k, (CRow o ids (map Some vs)). split; [congruence|]. split.
    { unfold kk, ids. rewrite SK. cbn. rewrite Nat.eqb_refl. discriminate. }
    split; auto. split.
    { rewrite Q. unfold bound_bytes. fold kk. rewrite <- Q, VW. apply row_bytes_tenc. auto. }
    split; auto. split; auto. split.
    + intros r I H. rewrite HC in H. rewrite B, VW in H. eapply row_order_part; eauto. apply F2_len in FV. auto.
    + rewrite Q. cbn [full]. rewrite <- Q. fold kk. intros FU r I. apply Nat.eqb_eq in FU.
      assert (FI : firstn kk ids = ids) by (rewrite FU; apply firstn_all).
      rewrite FI in *. assert (b = []) by (apply (f_equal (@length _)) in B; rewrite app_length in B; destruct b; auto; cbn in B; lia). subst b.
      inversion FW; subst W. rewrite app_nil_r in VW. rewrite HC. rewrite <- VW. apply row_order_full; auto. apply F2_len in FV. congruence.
Qed.

Lemma range_shape D s k T f fr rest : joint D s k T -> avail E = D ++ f :: rest -> m f = Some fr -> fr_type fr = RRange ->
  exists lcut rcut : bool,
    n_cut (normal_range E f fr s) = (if rcut then opt_cons (fr_rexpr fr) else fun l => l) ((if lcut then opt_cons (fr_lexpr fr) else fun l => l) (n_cut s)) /\
    n_lopen (normal_range E f fr s) = lcut && fr_lopen fr /\ n_ropen (normal_range E f fr s) = rcut && fr_ropen fr /\
    (lcut = true -> full D (fr_lids fr) (fr_left fr) = true) /\ (rcut = true -> full D (fr_rids fr) (fr_right fr) = true) /\
    n_eqin (normal_range E f fr s) = false /\ n_eq (normal_range E f fr s) = length D /\
    (n_lcnt (normal_range E f fr s) = O -> n_rcnt (normal_range E f fr s) = O -> D = [] /\ fr_left fr = [] /\ fr_right fr = []).
Proof.
  intros J AV M TY. assert (AF : In f (avail E)) by (rewrite AV; apply in_app_iff; right; left; auto).
  pose proof (INV f fr AF M) as SR. unfold src in SR. rewrite TY in SR. destruct SR as (_ & _ & SL & SRR).
  destruct (j_flags _ _ _ _ _ _ _ J) as (F1 & F2 & _ & _).
  assert (SK : skipn (length D) (avail E) = f :: rest) by (rewrite AV; apply skip_app).
  assert (ZD : length D = O -> D = []) by (destruct D; [auto|discriminate]).
  (* the run of a row bound is at least one *)
  assert (RL : forall op n open ids vs, bsrc E cs op f n open ids vs -> (2 <= length vs)%nat -> exists p, run (skipn (length D) (avail E)) ids = S p).
  { intros op n open ids vs (k0 & o & _ & _ & [(v & -> & _)|(q & -> & _)]) L; [cbn in L; lia|]. rewrite SK. cbn. rewrite Nat.eqb_refl. eauto. }
  unfold normal_range. rewrite (j_cnt _ _ _ _ _ _ _ J). set (av := skipn (length D) (avail E)) in *.
  destruct (fr_left fr) as [|lv [|lw lvs]] eqn:LL.
  - (* no left bound *)
    destruct (fr_right fr) as [|rv [|rw rvs]] eqn:RR; cbv zeta.
    + exists false, false. cbn. rewrite F1, F2, (j_lcnt _ _ _ _ _ _ _ J), (j_rcnt _ _ _ _ _ _ _ J), (j_eq _ _ _ _ _ _ _ J). do 7 (split; [auto; discriminate|]). intros X _. auto.
    + exists false, true. cbn. rewrite F1, (j_lcnt _ _ _ _ _ _ _ J), (j_eq _ _ _ _ _ _ _ J). do 7 (split; [auto; discriminate|]). discriminate.
    + fold av. destruct SRR as [X|SRR]; [discriminate|]. destruct (RL _ _ _ _ _ SRR) as [p P]; [cbn; lia|].
      destruct (Nat.eqb (run av (fr_rids fr)) (length (fr_rids fr))) eqn:Q.
      * exists false, true. cbn. fold av. rewrite Q, F1, P, (j_eq _ _ _ _ _ _ _ J). do 7 (split; [auto; discriminate|]). intros _ X. lia.
      * exists false, false. cbn. rewrite F1, P, (j_eq _ _ _ _ _ _ _ J). do 7 (split; [auto; discriminate|]). intros _ X. lia.
  - destruct (fr_right fr) as [|rv [|rw rvs]] eqn:RR; cbv zeta.
    + exists true, false. cbn. rewrite F2, (j_eq _ _ _ _ _ _ _ J). do 7 (split; [auto; discriminate|]). discriminate.
    + exists true, true. cbn. rewrite (j_eq _ _ _ _ _ _ _ J). do 7 (split; [auto; discriminate|]). discriminate.
    + fold av. destruct (Nat.eqb (run av (fr_rids fr)) (length (fr_rids fr))) eqn:Q.
      * exists true, true. cbn. fold av. rewrite Q, (j_eq _ _ _ _ _ _ _ J). do 7 (split; [auto; discriminate|]). discriminate.
      * exists true, false. cbn. rewrite (j_eq _ _ _ _ _ _ _ J). do 7 (split; [auto; discriminate|]). discriminate.
  - (* a row on the left *)
    destruct SL as [X|SL]; [discriminate|]. destruct (RL _ _ _ _ _ SL) as [p P]; [cbn; lia|].
    assert (RIGHT : (2 <= length (fr_right fr))%nat -> Nat.eqb (run (skipn (length D + S p) (avail E)) (fr_rids fr)) (length (fr_rids fr)) = false).
    { intros L2. destruct SRR as [X|SRR]; [rewrite X in L2; cbn in L2; lia|].
      destruct SRR as (kr & orr & XR & OR & BR). destruct SL as (kl & ol & XL & OL & BL).
      destruct BR as [(v & Q & _)|(q & QR & _ & _ & CR)]; [rewrite Q in L2; cbn in L2; lia|].
      destruct BL as [(v & Q & _)|(q' & QL & _ & _ & CL)]; [discriminate|].
      rewrite QR in *. destruct BA as [ND|NB].
      - assert (NR : run (skipn (length D + S p) (avail E)) (f :: q) = O).
        { destruct (skipn (length D + S p) (avail E)) as [|g l] eqn:SQ; auto. cbn. destruct (Nat.eqb_spec g f) as [->|]; auto. exfalso.
          rewrite AV in ND. apply NoDup_remove_2 in ND. apply ND. apply in_app_iff. right.
          rewrite AV in SQ. rewrite skipn_app, skipn_all2 in SQ by lia. replace (length D + S p - length D)%nat with (S p) in SQ by lia. cbn in SQ.
          rewrite <- (firstn_skipn p rest), SQ. apply in_app_iff. right. left. auto. }
        rewrite NR. auto.
      - exfalso. rewrite QL in CL. apply (NB f kl kr _ _ CL CR).
        + intros ->. assert (X : ol = orr) by congruence. subst. destruct orr; cbn in OL, OR; discriminate.
        + destruct ol; cbn in *; auto; discriminate.
        + destruct orr; cbn in *; auto; discriminate. }
    destruct (fr_right fr) as [|rv [|rw rvs]] eqn:RR; cbv zeta; fold av; rewrite P.
    + destruct (Nat.eqb (S p) (length (fr_lids fr))) eqn:Q.
      * exists true, false. cbn [n_cut n_lopen n_ropen n_eqin n_eq n_lcnt n_rcnt full]. fold av. rewrite P, Q, F2, (j_eq _ _ _ _ _ _ _ J). do 7 (split; [auto; discriminate|]). intros X _. lia.
      * exists false, false. cbn [n_cut n_lopen n_ropen n_eqin n_eq n_lcnt n_rcnt]. rewrite F2, (j_eq _ _ _ _ _ _ _ J). do 7 (split; [auto; discriminate|]). intros X _. lia.
    + destruct (Nat.eqb (S p) (length (fr_lids fr))) eqn:Q.
      * exists true, true. cbn [n_cut n_lopen n_ropen n_eqin n_eq n_lcnt n_rcnt full]. fold av. rewrite P, Q, (j_eq _ _ _ _ _ _ _ J). do 7 (split; [auto; discriminate|]). intros X _. lia.
      * exists false, true. cbn [n_cut n_lopen n_ropen n_eqin n_eq n_lcnt n_rcnt full]. rewrite (j_eq _ _ _ _ _ _ _ J). do 7 (split; [auto; discriminate|]). intros X _. lia.
    + specialize (RIGHT ltac:(cbn; lia)).
      destruct (Nat.eqb (S p) (length (fr_lids fr))) eqn:Q; rewrite RIGHT.
      * exists true, false. cbn [n_cut n_lopen n_ropen n_eqin n_eq n_lcnt n_rcnt full]. fold av. rewrite P, Q, (j_eq _ _ _ _ _ _ _ J). do 7 (split; [auto; discriminate|]). intros X _. lia.
      * exists false, false. cbn [n_cut n_lopen n_ropen n_eqin n_eq n_lcnt n_rcnt]. rewrite (j_eq _ _ _ _ _ _ _ J). do 7 (split; [auto; discriminate|]). intros X _. lia.
Qed.

(* a choice for the row INs of a selected row *)
Fixpoint find_idx {A} (p : A -> bool) (l : list A) : nat := match l with [] => O | x :: q => if p x then O else S (find_idx p q) end.
Lemma find_idx_spec {A} (p : A -> bool) l : (exists x, In x l /\ p x = true) -> exists x, nth_error l (find_idx p l) = Some x /\ p x = true.
Proof.
  induction l as [|y l IH]; intros (x & X & Y); [destruct X|]. cbn. destruct (p y) eqn:Q; [exists y; auto|].
  destruct X as [->|X]; [congruence|]. apply IH. eauto.
Qed.
Definition choice (r : row) (n : nat) : nat :=
  match nth_error cs n with
  | Some (CRowIn ids kss) => find_idx (fun vs => row_equal (map t_ ids) (map r ids) (map Some vs)) (somes (map all_some kss))
  | _ => O
  end.
Lemma choice_ok r : selected E cs r = true -> chooses E cs r (choice r).
Proof.
  intros S n ids kss C. unfold choice. rewrite C. pose proof (sel_at E cs r n _ S C) as H.
  pose proof (cond_at E cs OK n _ C) as CK. apply (rows_hold E (CRowIn ids kss) ids _ r CK eq_refl Logic.I) in H. destruct H as (vs & V & A).
  pose proof (rows_ok E (CRowIn ids kss) ids _ CK eq_refl) as RK. rewrite Forall_forall in RK.
  destruct (find_idx_spec (fun vs => row_equal (map t_ ids) (map r ids) (map Some vs)) (somes (map all_some kss))) as (ws & W1 & W2).
  - exists vs. split; auto. apply (row_equal_agree E r ids vs); auto. specialize (RK vs V). apply F2_len in RK. auto.
  - exists ws. split; auto. apply (row_equal_agree E r ids ws) in W2; auto. specialize (RK ws (nth_error_In _ _ W1)). apply F2_len in RK. auto.
Qed.

(* ---- the ranges ---- *)
Lemma dedup_props : forall l seen, 
  (forall rg, In rg (dedup seen l) -> In rg l /\ ~ In (fst rg) seen) /\ NoDup (map fst (dedup seen l)) /\
  (forall rg, In rg l -> In (fst rg) seen \/ exists rg', In rg' (dedup seen l) /\ fst rg' = fst rg).
Proof.
  assert (EX : forall k seen, existsb (beqb k) seen = true <-> In k seen).
  { intros k seen. rewrite existsb_exists. split.
    - intros (x & X & Y). unfold beqb in Y. destruct (bcompare k x) eqn:Q; try discriminate. apply bcompare_eq in Q. subst. auto.
    - intros X. exists k. split; auto. unfold beqb. rewrite bcompare_refl. auto. }
  induction l as [|x l IH]; intros seen; cbn [dedup].
  - split; [intros rg []|]. split; [constructor|intros rg []].
  - destruct (existsb (beqb (fst x)) seen) eqn:Q.
    + destruct (IH seen) as (A & B & C). split; [|split; auto].
      * intros rg H. destruct (A rg H). split; [right|]; auto.
      * intros rg [->|H]; auto. left. apply EX. auto.
    + assert (NS : ~ In (fst x) seen) by (rewrite <- EX; congruence).
      destruct (IH (fst x :: seen)) as (A & B & C). split; [|split].
      * intros rg [->|H]; [split; [left|]; auto|]. destruct (A rg H) as [H1 H2]. split; [right; auto|]. intros X. apply H2. right. auto.
      * cbn. constructor; auto. intros X. apply in_map_iff in X. destruct X as (y & Y1 & Y2). apply A in Y2. destruct Y2 as [_ Y2]. apply Y2. left. auto.
      * intros rg [->|H]; [right; exists rg; split; [left|]; auto|]. destruct (C rg H) as [[X|X]|(y & Y1 & Y2)]; auto.
        -- right. exists x. split; [left|]; auto.
        -- right. exists y. split; [right|]; auto.
Qed.

Definition covers (p : plan) (rg : krange) (k : list Z) : Prop :=
  if p_get p then k = fst rg else above (p_lopen p) (fst rg) k /\ below (p_ropen p) (snd rg) k.

Record good (order : list nat) (p : plan) (g_cols g_rest : list nat) (g_rows : rows_t) (g_tuples : list (list value))
  (g_range : list value -> krange) (g_in : row -> Prop) : Prop := Good {
  g_avail : avail E = g_cols ++ g_rest;
  g_tinv : tinv E cs m g_cols g_rows g_tuples;
  g_1 : forall rg, In rg (p_ranges p) -> exists t, In t g_tuples /\ rg = g_range t;
  g_2 : forall t, In t g_tuples -> In (g_range t) (p_ranges p);
  g_3 : NoDup (p_ranges p);
  g_4 : forall t u, In t g_tuples -> In u g_tuples -> tkey g_cols t = tkey g_cols u -> g_range t = g_range u;
  g_cover : forall t r, In t g_tuples -> index_row E r -> covers p (g_range t) (entry_key E r) <-> agree r g_cols t /\ g_in r;
  g_sound : forall r, index_row E r -> selected E cs r = true -> g_in r;
  g_cut : forall n c r t, In n (p_cut p) -> nth_error cs n = Some c -> In t g_tuples -> index_row E r -> agree r g_cols t -> g_in r -> holds E r c = true;
  g_sort : exists s, p_sort p = sort_use_index E order s /\ n_eq s = length g_cols }.
End Plan.
