(* Choosing the columns of an index and computing its key ranges go in step. *)
From Coq Require Import List ZArith Lia Bool.
From Verif Require Import Common.Bytes Common.KV Key.Model Key.Spec Key.ProofsKey Key.ProofsTop.
From Verif Require Import Like.Model Like.Spec Path.Model Path.Spec Path.Hit Path.Tuples.
Import ListNotations.
Local Open Scope Z_scope.

Lemma mem_iff f l : mem f l = true <-> In f l.
Proof.
  unfold mem. rewrite existsb_exists. split; [intros (x & X & Y); apply Nat.eqb_eq in Y; subst; auto|].
  intros X. exists f. split; auto. apply Nat.eqb_refl.
Qed.
Lemma mem_not f l : mem f l = false <-> ~ In f l.
Proof. rewrite <- mem_iff. destruct (mem f l); split; congruence. Qed.
Lemma add_set_len f l : (length l <= length (add_set f l))%nat.
Proof. unfold add_set. destruct (mem f l); cbn; lia. Qed.
Lemma add_set_new f l : ~ In f l -> add_set f l = f :: l.
Proof. intros H. unfold add_set. apply mem_not in H. rewrite H. auto. Qed.
Lemma add_set_in f l : In f (add_set f l).
Proof. unfold add_set. destruct (mem f l) eqn:Q; [apply mem_iff; auto|left; auto]. Qed.

Section Loop.
Variables (E : env) (cs : list cond) (m : fmap).
Hypothesis (OK : Forall (cond_ok E) cs) (APART : rows_apart cs) (INV : inv E cs m) (LF : like_first E cs).
Notation t_ := (ct E).
Notation agree := (agree E).
Notation okv := (okv E).
Notation snoc := (fun (t : list value) v => t ++ [v]).

Definition tkey (D : list nat) (t : list value) : list Z := flag E ++ tenc (map t_ D) t.
Definition lefts (k : kst) : list (list Z) := match k_recs k with [] => [k_l k] | l => map fst l end.

Record joint (D : list nat) (s : nst) (k : kst) (T : list (list value)) : Prop := JJ {
  j_tinv : tinv E cs m D (n_rows s) T;
  j_pos : (0 < length T)%nat;
  j_hit : length (n_hit s) = length D;
  j_in : forall f, In f (n_hit s) <-> In f D;
  j_cnt : n_cnt s = length D;
  j_lcnt : n_lcnt s = length D;
  j_rcnt : n_rcnt s = length D;
  j_flags : n_lopen s = false /\ n_ropen s = false /\ n_like s = false /\ n_eqin s = true;
  j_eq : n_eq s = length D;
  j_size : n_size s = length T;
  j_keys : lefts k = map (tkey D) T;
  j_k0 : k_recs k = [] -> k_r k = k_l k;
  j_k1 : forall rg, In rg (k_recs k) -> snd rg = [];
  j_k2 : k_recs k <> [] -> exists g gr, In g D /\ m g = Some gr /\ fr_type gr = RIn;
  j_rows : forall n, off_get n (k_rows k) = option_map fst (rows_get n (n_rows s));
  j_cut : forall n c r t, In n (n_cut s) -> nth_error cs n = Some c -> In t T -> index_row E r -> agree r D t -> holds E r c = true }.

Lemma joint0 : joint [] ns0 (KS (flag E) (flag E) [] []) [[]].
Proof.
  constructor; cbn; auto; try tauto; try contradiction.
  - apply tinv0.
  - unfold tkey. cbn. rewrite app_nil_r. auto.
Qed.

Lemma tkey_snoc D t f v : length t = length D -> okv f v -> tkey (D ++ [f]) (t ++ [v]) = tkey D t ++ enc_as E f v.
Proof.
  intros L H. unfold tkey. rewrite map_app, tenc_app by (rewrite map_length; auto). cbn [map tenc].
  rewrite enc_ok by auto. rewrite app_nil_r, app_assoc. auto.
Qed.
Lemma tlen D rows T t : tinv E cs m D rows T -> In t T -> length t = length D.
Proof. intros TT H. pose proof (ti_len _ _ _ _ _ _ TT) as L. rewrite Forall_forall in L. apply L in H. apply F2_len in H. auto. Qed.

Lemma keys_expand D rows T f vs : tinv E cs m D rows T -> Forall (okv f) vs ->
  map (tkey (D ++ [f])) (expand snoc T vs) = expand (fun l v => l ++ enc_as E f v) (map (tkey D) T) vs.
Proof.
  intros TT F. unfold expand. induction F as [|v vs V F IH]; cbn; auto. rewrite map_app, IH. f_equal.
  rewrite !map_map. apply map_ext_in. intros t Ht. apply tkey_snoc; auto. eapply tlen; eauto.
Qed.
Lemma keys_fill D rows T f vs off : tinv E cs m D rows T -> Forall (okv f) vs -> vs <> [] -> forall vi i, (vi < length vs)%nat ->
  map (tkey (D ++ [f])) (fills snoc (VNum 0) vs off vi i T) = fills (fun l v => l ++ enc_as E f v) (VNum 0) vs off vi i (map (tkey D) T).
Proof.
  intros TT F NE. assert (L : forall t, In t T -> length t = length D) by (intros; eapply tlen; eauto). clear TT.
  assert (VN : length vs <> O) by (destruct vs; cbn; congruence).
  induction T as [|t T IH]; intros vi i VI; cbn [map fills]; auto. f_equal.
  - apply tkey_snoc; [apply L; left; auto|]. rewrite Forall_forall in F. apply F. apply nth_In. auto.
  - assert (L' : forall u, In u T -> length u = length D) by (intros; apply L; right; auto).
    destruct (Nat.eqb (S i) off); apply IH; auto. apply Nat.mod_upper_bound. auto.
Qed.
Lemma fill_fst f vs off recs : forall vi i, map fst (fill E f vs off vi i recs) = fills (fun l v => l ++ enc_as E f v) (VNum 0) vs off vi i (map fst recs).
Proof. induction recs as [|[l r] recs IH]; intros vi i; cbn [fill map fills fst]; auto. f_equal. destruct (Nat.eqb (S i) off); apply IH. Qed.
Lemma fill_snd f vs off recs : (forall rg, In rg recs -> snd rg = []) -> forall vi i rg, In rg (fill E f vs off vi i recs) -> snd rg = [].
Proof.
  induction recs as [|[l r] recs IH]; intros H vi i rg; cbn [fill]; [intros []|].
  assert (H' : forall rg, In rg recs -> snd rg = []) by (intros; apply H; right; auto).
  intros [<-|X]; [apply (H (l, r)); left; auto|]. destruct (Nat.eqb (S i) off); eapply IH; eauto.
Qed.

Lemma cut_old D s k T f v vs : joint D s k T ->
  forall n c r t, In n (n_cut s) -> nth_error cs n = Some c -> In t T -> index_row E r -> agree r (D ++ f) (t ++ v :: vs) -> holds E r c = true.
Proof.
  intros J n c r t H1 H2 H3 H4 H5. eapply (j_cut _ _ _ _ J); eauto. pose proof (tlen _ _ _ _ (j_tinv _ _ _ _ J) H3) as L.
  apply Forall2_app_inv_l in H5. destruct H5 as (a & b & X & Y & Q). pose proof (F2_len _ _ _ X) as LX.
  assert (t = a).
  { assert (firstn (length D) (t ++ v :: vs) = firstn (length D) (a ++ b)) by congruence.
    rewrite <- L in H at 1. rewrite LX in H. rewrite !firstn_app, !firstn_all, !Nat.sub_diag in H. cbn in H. rewrite !app_nil_r in H. auto. }
  subst. auto.
Qed.

Lemma expand_in {A B} (g : A -> B -> A) T vs u : In u (expand g T vs) -> exists t v, In t T /\ In v vs /\ u = g t v.
Proof. unfold expand. intros H. apply in_flat_map in H. destruct H as (v & V & H). apply in_map_iff in H. destruct H as (t & <- & H). eauto. Qed.

(* EQ and LIKE_EQ *)
Lemma step_eq D s k T f fr rest : joint D s k T -> avail E = D ++ f :: rest -> ~ In f D -> m f = Some fr -> (fr_type fr = REq \/ fr_type fr = RLikeEq) ->
  joint (D ++ [f]) (normal_eq f fr s)
    (match k_recs k with
     | [] => KS (k_l k ++ enc_as E f (hd (VNum 0) (fr_eq fr))) (k_r k ++ enc_as E f (hd (VNum 0) (fr_eq fr))) [] (k_rows k)
     | recs => KS (k_l k) (k_r k) (map (fun rg => (fst rg ++ enc_as E f (hd (VNum 0) (fr_eq fr)), snd rg)) recs) (k_rows k)
     end) (expand snoc T (fr_eq fr)).
Proof.
  intros J AV NF M TY. assert (AF : In f (avail E)) by (rewrite AV; apply in_app_iff; right; left; auto).
  assert (FS : fixsrc cs f fr) by (specialize (INV f fr AF M); unfold src in INV; destruct TY as [TY|TY]; rewrite TY in INV; auto).
  destruct (fix_vals E cs OK f fr FS) as (VO & VN & V1).
  assert (NT : fr_type fr <> RIn) by (destruct TY as [TY|TY]; rewrite TY; discriminate).
  assert (NP : match fr_type fr with RLikePrefix => true | _ => false end = false) by (destruct TY as [TY|TY]; rewrite TY; auto).
  assert (NI : match fr_type fr with RIn => true | _ => false end = false) by (destruct TY as [TY|TY]; rewrite TY; auto).
  specialize (V1 NT). destruct (fr_eq fr) as [|v [|]] eqn:EQ; try discriminate. inversion VO as [|? ? VV _]; subst. cbn [hd].
  assert (NH : ~ In f (n_hit s)) by (rewrite (j_in _ _ _ _ J); auto).
  assert (TI : tinv E cs m (D ++ [f]) (n_rows s) (expand snoc T [v])).
  { pose proof (expand_tinv E cs m OK INV D (n_rows s) T f fr (j_tinv _ _ _ _ J) NF AF M FS (j_pos _ _ _ _ J)) as X.
    rewrite EQ, NI, andb_false_r in X. apply X. intros n R. unfold rowin in R. rewrite M, NI, andb_false_r in R. discriminate. }
  pose proof (j_keys _ _ _ _ J) as KK.
  unfold normal_eq. rewrite NP, add_set_new by auto.
  constructor; cbn [n_hit n_cut n_cnt n_lcnt n_rcnt n_lopen n_ropen n_like n_eqin n_eq n_rows n_size length].
  - auto.
  - rewrite expand_len. cbn. pose proof (j_pos _ _ _ _ J). lia.
  - rewrite app_length, (j_hit _ _ _ _ J). cbn. lia.
  - intros g. rewrite in_app_iff. cbn. rewrite (j_in _ _ _ _ J). tauto.
  - rewrite app_length, (j_cnt _ _ _ _ J). cbn. lia.
  - rewrite app_length, (j_cnt _ _ _ _ J). cbn. lia.
  - rewrite app_length, (j_cnt _ _ _ _ J). cbn. lia.
  - destruct (j_flags _ _ _ _ J) as (A & B & C & F). rewrite C, F. auto.
  - rewrite app_length, (j_eq _ _ _ _ J). cbn. lia.
  - rewrite expand_len, (j_size _ _ _ _ J). cbn. lia.
  - rewrite (keys_expand D (n_rows s)); [|apply (j_tinv _ _ _ _ J)|repeat constructor; auto]. rewrite <- KK. unfold lefts, expand. cbn. rewrite app_nil_r.
    destruct (k_recs k) as [|rg recs]; cbn; auto. f_equal. rewrite !map_map. auto.
  - pose proof (j_k0 _ _ _ _ J) as X. destruct (k_recs k); cbn; [intros _; rewrite X; auto|discriminate].
  - pose proof (j_k1 _ _ _ _ J) as X. destruct (k_recs k) as [|r0 recs]; cbn [k_recs]; [intros _ []|]. intros rg H. apply in_map_iff in H. destruct H as (x & <- & H). cbn. auto.
  - pose proof (j_k2 _ _ _ _ J) as X. destruct (k_recs k) as [|r0 recs]; cbn [k_recs]; [congruence|]. intros _. destruct X as (g & gr & A & B & C); [discriminate|].
    exists g, gr. split; [apply in_app_iff; auto|auto].
  - intros n. pose proof (j_rows _ _ _ _ J n). destruct (k_recs k); auto.
  - intros n c r u Hn C Hu IR A. destruct (expand_in _ _ _ _ Hu) as (t & w & Ht & [<-|[]] & ->).
    assert (FD : In f (D ++ [f])) by (apply in_app_iff; right; left; auto).
    destruct (fr_row fr) eqn:RW; cbn [andb] in Hn.
    + destruct (all_in (fr_lids fr) (f :: n_hit s)) eqn:AI; cbn [negb] in Hn; [apply in_app_iff in Hn; destruct Hn as [Hn|Hn]|]; try (eapply cut_old; eauto; fail).
      eapply (cut_row1 E cs m OK APART (D ++ [f])); eauto.
      intros g Hg. unfold all_in in AI. rewrite forallb_forall in AI. apply AI in Hg. apply mem_iff in Hg. apply in_app_iff.
      destruct Hg as [<-|Hg]; [right; left; auto|left; apply (j_in _ _ _ _ J); auto].
    + apply in_app_iff in Hn. destruct Hn as [Hn|Hn]; [|eapply cut_old; eauto].
      eapply (cut_plain E cs m OK (D ++ [f])); eauto.
Qed.

(* IN *)
Lemma step_in D s k T f fr rest s' : joint D s k T -> avail E = D ++ f :: rest -> ~ In f D -> m f = Some fr -> fr_type fr = RIn ->
  normal_in E f fr s = Some s' ->
  exists k' T', range_in E f fr k = Some k' /\ joint (D ++ [f]) s' k' T'.
Proof.
  intros J AV NF M TY. assert (AF : In f (avail E)) by (rewrite AV; apply in_app_iff; right; left; auto).
  assert (FS : fixsrc cs f fr) by (specialize (INV f fr AF M); unfold src in INV; rewrite TY in INV; auto).
  destruct (fix_vals E cs OK f fr FS) as (VO & VN & _).
  assert (NH : ~ In f (n_hit s)) by (rewrite (j_in _ _ _ _ J); auto).
  assert (ISIN : (match fr_type fr with RIn => true | _ => false end) = true) by (rewrite TY; auto).
  set (n := first_cond fr).
  assert (RW : forall n', rowin m n' f = true <-> fr_row fr = true /\ n = n').
  { intros n'. unfold rowin. rewrite M, ISIN, andb_true_r, andb_true_iff, Nat.eqb_eq. fold n. tauto. }
  assert (FD : In f (D ++ [f])) by (apply in_app_iff; right; left; auto).
  (* the part that does not depend on how the keys grow *)
  assert (FIN : forall rows size T' k',
    tinv E cs m (D ++ [f]) rows T' -> size = length T' -> (0 < length T')%nat ->
    (forall u, In u T' -> exists t v, In t T /\ u = t ++ [v]) ->
    map fst (k_recs k') = map (tkey (D ++ [f])) T' -> k_recs k' <> [] ->
    (forall rg, In rg (k_recs k') -> snd rg = []) ->
    (forall n, off_get n (k_rows k') = option_map fst (rows_get n rows)) ->
    joint (D ++ [f])
      (NS (add_set f (n_hit s))
         (if fr_row fr && negb (all_in (fr_lids fr) (add_set f (n_hit s)) &&
             match rows_get n rows with Some (_, hits) => Nat.eqb hits (length (fr_lids fr)) | None => false end)
          then n_cut s else fr_conds fr ++ n_cut s)
         (S (n_cnt s)) (S (n_cnt s)) (S (n_cnt s)) false false (n_like s) (n_eqin s) (S (n_eq s)) rows size) k' T').
  { intros rows size T' k' TI -> TP OLD KS KN K1 KR. rewrite add_set_new by auto.
    constructor; cbn [n_hit n_cut n_cnt n_lcnt n_rcnt n_lopen n_ropen n_like n_eqin n_eq n_rows n_size length]; auto.
    - rewrite app_length, (j_hit _ _ _ _ J). cbn. lia.
    - intros g. rewrite in_app_iff. cbn. rewrite (j_in _ _ _ _ J). tauto.
    - rewrite app_length, (j_cnt _ _ _ _ J). cbn. lia.
    - rewrite app_length, (j_cnt _ _ _ _ J). cbn. lia.
    - rewrite app_length, (j_cnt _ _ _ _ J). cbn. lia.
    - destruct (j_flags _ _ _ _ J) as (A & B & C & F). rewrite C, F. auto.
    - rewrite app_length, (j_eq _ _ _ _ J). cbn. lia.
    - unfold lefts. destruct (k_recs k'); [congruence|auto].
    - congruence.
    - intros _. exists f, fr. auto.
    - intros n' c r u Hn C Hu IR A. destruct (OLD u Hu) as (t & w & Ht & ->).
      destruct (fr_row fr) eqn:R; cbn [andb] in Hn.
      + destruct (all_in _ _ && _) eqn:AI; cbn [negb] in Hn; [apply in_app_iff in Hn; destruct Hn as [Hn|Hn]|]; try (eapply cut_old; eauto; fail).
        apply andb_true_iff in AI. destruct AI as [_ AI]. destruct (rows_get n rows) as [[off hits]|] eqn:G; [|discriminate]. apply Nat.eqb_eq in AI. subst hits.
        eapply (cut_rowin E cs m OK INV (D ++ [f])); eauto.
      + apply in_app_iff in Hn. destruct Hn as [Hn|Hn]; [|eapply cut_old; eauto].
        eapply (cut_plain E cs m OK (D ++ [f])); eauto. }
  pose proof (j_keys _ _ _ _ J) as KK. pose proof (j_rows _ _ _ _ J n) as KN.
  unfold normal_in, range_in. fold n.
  destruct (if fr_row fr then rows_get n (n_rows s) else None) as [[off hits]|] eqn:G.
  - destruct (fr_row fr) eqn:R; [|discriminate]. rewrite KN, G. cbn [option_map fst].
    destruct (ti_dig _ _ _ _ _ _ (j_tinv _ _ _ _ J) n off hits G) as (O0 & N2 & [q Q] & _).
    assert (LR : length (k_recs k) = length T).
    { unfold lefts in KK. pose proof (f_equal (@length _) KK) as L. rewrite map_length in L. destruct (k_recs k) as [|rg rgs]; [|rewrite map_length in L; auto].
      cbn in L. destruct q; [pose proof (j_pos _ _ _ _ J); lia|]. nia. }
    rewrite LR, <- (j_size _ _ _ _ J). destruct (negb (is_nil (fr_eq fr)) && _); [|discriminate]. intros [= <-].
    eexists _, (fills snoc (VNum 0) (fr_eq fr) off 0 0 T). split; [reflexivity|].
    assert (VI : (0 < length (fr_eq fr))%nat) by (destruct (fr_eq fr); cbn; [congruence|lia]).
    assert (KR : k_recs k <> []) by (intros X; rewrite X in LR; pose proof (j_pos _ _ _ _ J); cbn in LR; lia).
    apply (FIN ((n, (off, S hits)) :: n_rows s) (n_size s)); cbn [k_recs k_rows].
    + apply fill_tinv; auto; [apply (j_tinv _ _ _ _ J)|]. apply RW; auto.
    + rewrite fills_len. apply (j_size _ _ _ _ J).
    + rewrite fills_len. apply (j_pos _ _ _ _ J).
    + intros u Hu. apply In_nth_error in Hu. destruct Hu as [p Hu].
      rewrite fills_nth in Hu by (auto; lia). destruct (nth_error T p) as [t|] eqn:X; [|discriminate]. injection Hu as <-.
      apply nth_error_In in X. eauto.
    + rewrite fill_fst. rewrite (keys_fill D (n_rows s)); auto; [|apply (j_tinv _ _ _ _ J)]. f_equal. rewrite <- KK. unfold lefts. destruct (k_recs k); congruence.
    + intros X. assert (LX : length (map fst (fill E f (fr_eq fr) off 0 0 (k_recs k))) = O) by (rewrite X; auto).
      rewrite fill_fst, fills_len, map_length in LX. pose proof (j_pos _ _ _ _ J). unfold krange in *. lia.
    + apply fill_snd. apply (j_k1 _ _ _ _ J).
    + intros n'. cbn. destruct (Nat.eqb_spec n n') as [<-|NE]; [rewrite KN, G; auto|apply (j_rows _ _ _ _ J)].
  - destruct (_ && _ && _); [discriminate|]. destruct (_ && _)%bool; [discriminate|]. intros [= <-].
    assert (G' : (if fr_row fr then off_get n (k_rows k) else None) = None).
    { destruct (fr_row fr); auto. rewrite KN, G. auto. }
    rewrite G'. set (recs := match k_recs k with [] => [(k_l k, [])] | l => l end).
    assert (RF : map fst recs = lefts k) by (unfold recs, lefts; destruct (k_recs k); auto).
    assert (LR : length recs = length T) by (rewrite <- (map_length fst), RF, KK, map_length; auto).
    eexists _, (expand snoc T (fr_eq fr)). split; [reflexivity|].
    assert (MF : map fst (flat_map (fun v => map (fun rg : krange => (fst rg ++ enc_as E f v, @nil Z)) recs) (fr_eq fr)) =
                 expand (fun l v => l ++ enc_as E f v) (map fst recs) (fr_eq fr)).
    { unfold expand. generalize (fr_eq fr) as vs. intros vs. induction vs as [|v vs IH]; cbn; auto. rewrite map_app, IH, !map_map. auto. }
    assert (PP : (0 < length (expand snoc T (fr_eq fr)))%nat).
    { rewrite expand_len. pose proof (j_pos _ _ _ _ J). destruct (fr_eq fr) as [|v0 l0]; [congruence|]. cbn [length]. nia. }
    apply (FIN (if fr_row fr then (n, (n_size s, 1%nat)) :: n_rows s else n_rows s) (length (fr_eq fr) * n_size s)%nat); cbn [k_recs k_rows].
    + pose proof (expand_tinv E cs m OK INV D (n_rows s) T f fr (j_tinv _ _ _ _ J) NF AF M FS (j_pos _ _ _ _ J)) as X.
      rewrite ISIN, andb_true_r in X. rewrite (j_size _ _ _ _ J). apply X. intros n' RR. apply RW in RR. destruct RR as [RR <-]. rewrite RR in G. auto.
    + rewrite expand_len, (j_size _ _ _ _ J). lia.
    + auto.
    + intros u Hu. destruct (expand_in _ _ _ _ Hu) as (t & v & A & B & ->). eauto.
    + etransitivity; [exact MF|]. rewrite RF, KK. symmetry. apply (keys_expand D (n_rows s)); auto. apply (j_tinv _ _ _ _ J).
    + intros X. apply (f_equal (map fst)) in X.
      assert (LX : length (expand (fun l v => l ++ enc_as E f v) (map fst recs) (fr_eq fr)) = O) by (rewrite <- MF; etransitivity; [exact (f_equal (@length _) X)|auto]).
      rewrite !expand_len, map_length in *. unfold krange in *. lia.
    + intros rg H. apply in_flat_map in H. destruct H as (v & _ & H). apply in_map_iff in H. destruct H as (x & <- & _). auto.
    + intros n'. rewrite LR, (j_size _ _ _ _ J). destruct (fr_row fr); cbn; [destruct (Nat.eqb n n'); auto|]; apply (j_rows _ _ _ _ J).
Qed.

Lemma normal_mono fs : forall s, (length (n_hit s) <= length (n_hit (normal_loop E m fs s)))%nat.
Proof.
  assert (R : forall f fr s, (length (n_hit s) <= length (n_hit (normal_range E f fr s)))%nat /\ (In f (n_hit s) \/ S (length (n_hit s)) <= length (n_hit (normal_range E f fr s)))%nat).
  { intros f fr s.
    assert (F : forall l h, (length h <= length (fold_left (fun h g => add_set g h) l h))%nat).
    { induction l as [|x l IH]; intros h; cbn; auto. specialize (IH (add_set x h)). pose proof (add_set_len x h). lia. }
    assert (X : (length (add_set f (n_hit s)) <= length (n_hit (normal_range E f fr s)))%nat).
    { unfold normal_range. set (h0 := add_set f (n_hit s)).
      destruct (fr_left fr) as [|? [|? ?]], (fr_right fr) as [|? [|? ?]]; cbv zeta;
      repeat match goal with |- context [if Nat.eqb ?a ?b then _ else _] => destruct (Nat.eqb a b) end; cbn [n_hit];
      try lia; try (apply F; fail);
      (etransitivity; [apply F|]; apply F). }
    pose proof (add_set_len f (n_hit s)). split; [lia|]. destruct (mem f (n_hit s)) eqn:Q; [left; apply mem_iff; auto|right].
    rewrite add_set_new in X by (apply mem_not; auto). cbn in X. lia. }
  induction fs as [|f fs IH]; intros s; cbn [normal_loop]; auto.
  destruct (mem f (n_hit s)); auto. destruct (m f) as [fr|]; auto.
  assert (A : (length (n_hit s) <= length (n_hit (normal_eq f fr s)))%nat) by (unfold normal_eq; cbn; apply add_set_len).
  destruct (fr_type fr); auto.
  - apply R.
  - specialize (IH (normal_eq f fr s)). lia.
  - specialize (IH (normal_eq f fr s)). lia.
  - destruct (t_ f); auto.
  - destruct (normal_in E f fr s) as [s'|] eqn:N; auto. specialize (IH s').
    assert (B : n_hit s' = add_set f (n_hit s)).
    { unfold normal_in in N. cbv zeta in N.
      match type of N with match ?x with Some _ => _ | None => None end = _ => destruct x as [[rows size]|]; [|discriminate] end. injection N as <-. auto. }
    rewrite B in IH. pose proof (add_set_len f (n_hit s)). lia.
Qed.
Lemma range_hit f fr s : ~ In f (n_hit s) -> (S (length (n_hit s)) <= length (n_hit (normal_range E f fr s)))%nat.
Proof.
  intros NI.
  assert (F : forall l h, (length h <= length (fold_left (fun h g => add_set g h) l h))%nat).
  { induction l as [|x l IH]; intros h; cbn; auto. specialize (IH (add_set x h)). pose proof (add_set_len x h). lia. }
  assert (X : (length (add_set f (n_hit s)) <= length (n_hit (normal_range E f fr s)))%nat).
  { unfold normal_range. set (h0 := add_set f (n_hit s)).
    destruct (fr_left fr) as [|? [|? ?]], (fr_right fr) as [|? [|? ?]]; cbv zeta;
    repeat match goal with |- context [if Nat.eqb ?a ?b then _ else _] => destruct (Nat.eqb a b) end; cbn [n_hit];
    try lia; try (apply F; fail);
    (etransitivity; [apply F|]; apply F). }
  rewrite add_set_new in X by auto. cbn in X. lia.
Qed.

Definition range_step (idx f : nat) (fr : frange) (s : kst) : kst :=
  match k_recs s with
  | [] => let k := range_func E idx f fr (k_l s, k_r s) in KS (fst k) (snd k) [] (k_rows s)
  | recs => KS (k_l s) (k_r s) (map (fun rg => range_func E idx f fr (fst rg, fst rg)) recs) (k_rows s)
  end.
Definition prefix_bytes (v : value) : list Z := match v with VStr p => app_string_prefix p | VNum z => Expr.Value.to_string z end.

(* how the loops end *)
Inductive final (s' : nst) (k' : kst) : Prop :=
  | fin_keys D T : (exists rest, avail E = D ++ rest) -> joint D s' k' T -> final s' k'
  | fin_range D T s k f fr rest : joint D s k T -> avail E = D ++ f :: rest -> ~ In f D -> m f = Some fr -> fr_type fr = RRange ->
      s' = normal_range E f fr s -> k' = range_step (length D) f fr k -> final s' k'
  | fin_prefix D T s k f fr rest : joint D s k T -> avail E = D ++ f :: rest -> ~ In f D -> m f = Some fr -> fr_type fr = RLikePrefix ->
      k_recs k = [] -> s' = normal_eq f fr s ->
      k' = KS (k_l k ++ prefix_bytes (hd (VNum 0) (fr_eq fr))) (k_r k ++ prefix_bytes (hd (VNum 0) (fr_eq fr))) [] (k_rows k) ->
      final s' k'.

(* no IN before a LIKE with a wildcard *)
Lemma prefix_first D s k T f fr rest : joint D s k T -> avail E = D ++ f :: rest -> m f = Some fr -> fr_type fr = RLikePrefix ->
  k_recs k = [].
Proof.
  intros J AV M TY. assert (AF : In f (avail E)) by (rewrite AV; apply in_app_iff; right; left; auto).
  pose proof (INV f fr AF M) as SR. unfold src in SR. rewrite TY in SR. destruct SR as (n & p & s0 & C & IL & _).
  destruct (k_recs k) as [|rg rgs] eqn:KR; auto. exfalso.
  destruct (j_k2 _ _ _ _ J) as (g & gr & Hg & Mg & GT); [rewrite KR; discriminate|].
  destruct (ti_fix _ _ _ _ _ _ (j_tinv _ _ _ _ J) g Hg) as (gr' & Mg' & (n2 & c2 & ids & rws & i & C2 & RO & I & Q & _ & _ & _ & TT)).
  assert (gr' = gr) by congruence. subst gr'. rewrite GT in TT.
  assert (X := LF D f rest p g c2 AV (nth_error_In _ _ C)). specialize (X ltac:(intros; rewrite IL; discriminate) Hg (nth_error_In _ _ C2)).
  assert (GI : In g ids) by (eapply nth_error_In; eauto). rewrite <- (rows_fixes _ _ _ RO) in GI.
  destruct c2; try (apply X; exact GI); cbn in RO, GI.
  - destruct o; try discriminate; destruct k0; try discriminate. injection RO as <- <-. cbn in TT. lia.
  - destruct o; try discriminate; try contradiction. destruct (all_some ks); try discriminate. injection RO as <- <-. cbn in TT. lia.
  - destruct p0; [|discriminate]. destruct (index_for_like l); try discriminate. injection RO as <- <-. cbn in TT. lia.
  - discriminate.
  - discriminate.
Qed.

Lemma loops fs : forall D s k T, avail E = D ++ fs -> joint D s k T ->
  exists k', range_loop E m (length (n_hit (normal_loop E m fs s))) (n_like (normal_loop E m fs s)) fs (length D) k = Some k' /\
    final (normal_loop E m fs s) k'.
Proof.
  induction fs as [|f fs IH]; intros D s k T AV J.
  { exists k. split; auto. eapply fin_keys; eauto. }
  assert (AF : In f (avail E)) by (rewrite AV; apply in_app_iff; right; left; auto).
  assert (STOP : forall like, range_loop E m (length (n_hit s)) like (f :: fs) (length D) k = Some k).
  { intros like. cbn [range_loop]. rewrite (j_hit _ _ _ _ J). rewrite (proj2 (Nat.ltb_lt _ _)) by lia. auto. }
  assert (END : final s k) by (eapply fin_keys; eauto).
  assert (NEXT : avail E = (D ++ [f]) ++ fs) by (rewrite <- app_assoc; auto).
  assert (LEN : length (D ++ [f]) = S (length D)) by (rewrite app_length; cbn; lia).
  pose proof (normal_mono (f :: fs) s) as MONO.
  cbn [normal_loop] in *. destruct (mem f (n_hit s)) eqn:ME; [exists k; auto|].
  assert (NH : ~ In f (n_hit s)) by (apply mem_not; auto). assert (NF : ~ In f D) by (rewrite <- (j_in _ _ _ _ J); auto).
  destruct (m f) as [fr|] eqn:M; [|exists k; auto].
  pose proof (INV f fr AF M) as SR. unfold src in SR.
  assert (GO : forall s' k' T', joint (D ++ [f]) s' k' T' -> exists k'',
     range_loop E m (length (n_hit (normal_loop E m fs s'))) (n_like (normal_loop E m fs s')) fs (S (length D)) k' = Some k'' /\
     final (normal_loop E m fs s') k'' /\ (S (length D) <= length (n_hit (normal_loop E m fs s')))%nat).
  { intros s' k' T' J'. destruct (IH _ _ _ _ NEXT J') as (k'' & A & B). rewrite LEN in A. exists k''. split; auto. split; auto.
    pose proof (normal_mono fs s') as X. rewrite (j_hit _ _ _ _ J'), LEN in X. auto. }
  destruct (fr_type fr) eqn:TY; try contradiction.
  - (* RANGE *)
    eexists. split; [|eapply fin_range; eauto; reflexivity]. cbn [range_loop].
    pose proof (range_hit f fr s NH) as X. rewrite (j_hit _ _ _ _ J) in X. rewrite (proj2 (Nat.ltb_ge _ _)) by lia.
    rewrite M, TY. cbn [Nat.sub]. rewrite Nat.sub_0_r. unfold range_step. destruct (k_recs k); auto.
  - (* EQ *)
    destruct (GO _ _ _ (step_eq D s k T f fr fs J AV NF M (or_introl TY))) as (k'' & A & B & C). exists k''. split; auto.
    cbn [range_loop]. rewrite (proj2 (Nat.ltb_ge _ _)) by lia. rewrite M, TY, andb_false_r. exact A.
  - exists k; auto.
  - destruct (GO _ _ _ (step_eq D s k T f fr fs J AV NF M (or_intror TY))) as (k'' & A & B & C). exists k''. split; auto.
    cbn [range_loop]. rewrite (proj2 (Nat.ltb_ge _ _)) by lia. rewrite M, TY, andb_false_r. exact A.
  - (* LIKE prefix *)
    destruct (t_ f); try solve [exists k; auto].
    pose proof (prefix_first D s k T f fr fs J AV M TY) as KR.
    eexists. split; [|eapply fin_prefix; eauto; reflexivity]. cbn [range_loop].
    unfold normal_eq. rewrite TY. cbn [n_hit n_like]. rewrite add_set_new by auto. cbn [length]. rewrite (j_hit _ _ _ _ J).
    rewrite Nat.ltb_irrefl, M, TY, orb_true_r, KR. cbn [andb].
    destruct fs as [|g fs]; cbn [range_loop]; auto. rewrite (proj2 (Nat.ltb_lt _ _)) by lia. auto.
  - (* IN *)
    destruct (normal_in E f fr s) as [s'|] eqn:N; [|exists k; auto].
    destruct (step_in D s k T f fr fs s' J AV NF M TY N) as (k1 & T1 & R & J1).
    destruct (GO _ _ _ J1) as (k'' & A & B & C). exists k''. split; auto.
    cbn [range_loop]. rewrite (proj2 (Nat.ltb_ge _ _)) by lia. rewrite M, TY, R. exact A.
Qed.
End Loop.
