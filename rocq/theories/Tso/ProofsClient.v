From Verif.Tso Require Import Model Spec Proofs.
Local Open Scope Z_scope.

Lemma gen_try_fits o k p l o' : 0 <= cur_l o -> 0 < k -> gen_try o k = GOk p l o' ->
  0 <= l /\ l + k < 2 ^ 18.
Proof.
  unfold gen_try. intros H1 H2 E. destruct (negb (cur_p o =? 0)); [|discriminate].
  destruct (_ || _); [discriminate|]. destruct (cur_l o + k <? max_logical) eqn:Q; [|discriminate].
  inversion E; subst. apply Z.ltb_lt in Q. unfold max_logical, logical_bits in Q. lia.
Qed.

Definition req_l (r : req) : Z := match r with RUpdate _ l _ => l | RReset _ l _ _ => l end.
Definition NI (x : node) : Prop :=
  0 <= cur_l (obj x) /\ Forall (fun k => 0 < k) (inflight x) /\
  (forall r, lst x = LSpend r -> 0 <= req_l r) /\ (forall r, tk x = TKpend r -> 0 <= req_l r).
Definition LI (c : cluster) : Prop :=
  (forall n, NI (nodes c n)) /\ Forall (fun e => 0 <= req_l (e_req e)) (log c) /\
  Forall (fun o => 0 <= o_l o /\ 0 < o_count o /\ o_l o + o_count o < 2 ^ 18) (outs c).

Lemma LI_node c n x : LI c -> NI x -> LI (set_node c n x).
Proof.
  intros (A & B & C) H. split; [|split; auto]. intros m. cbn. destruct (m =? n); auto.
Qed.
Lemma LI_log c e : LI c -> 0 <= req_l (e_req e) -> LI (mk_cluster (log c ++ [e]) (nodes c) (rleader c) (outs c)).
Proof. intros (A & B & C) H. split; [|split]; cbn; auto. apply Forall_app; auto. Qed.
Lemma LI_rl c r : LI c -> LI (mk_cluster (log c) (nodes c) r (outs c)).
Proof. intros H. exact H. Qed.

Lemma update_l o now r : update_timestamp o now = Some r -> req_l r = 0.
Proof.
  unfold update_timestamp. destruct (if guard_ms <? now - cur_p o then _ else _); [|discriminate].
  intros E. inversion E; reflexivity.
Qed.
Lemma apply_l o h r o' h' ok : apply_req o h r = (o', h', ok) -> 0 <= cur_l o -> 0 <= req_l r -> 0 <= cur_l o'.
Proof.
  destruct r; cbn; unfold update_tso, reset_tso; intros E.
  - destruct ((save <? last_save o) || (p <? cur_p o)); inversion E; subst; auto.
  - destruct (((save <? last_save o) || (p <? cur_p o)) && negb force); inversion E; subst; auto.
Qed.

Lemma do_gen_LI c n i c' : LI c -> do_gen c n i = Some c' -> LI c'.
Proof.
  intros I E. pose proof I as (N & LL & F). unfold do_gen in E. destruct (N n) as (D & FI & P1 & P2).
  destruct (nth_error (inflight (nodes c n)) i) as [cnt|] eqn:EN; [|discriminate].
  assert (HC : 0 < cnt). { rewrite Forall_forall in FI. apply FI. eapply nth_error_In; eauto. }
  destruct (gen_try (obj (nodes c n)) cnt) as [p l o'| |] eqn:G; inversion E; subst; auto.
  pose proof (gen_try_fits _ _ _ _ _ D HC G).
  assert (0 <= cur_l o').
  { unfold gen_try in G. destruct (negb (cur_p (obj (nodes c n)) =? 0)); [|discriminate].
    destruct (_ || _); [discriminate|]. destruct (_ <? _); inversion G; subst; cbn; lia. }
  split; [|split]; cbn; auto.
  - intros m. destruct (m =? n); auto. repeat split; cbn; auto. apply remove_nth_Forall; auto.
  - constructor; auto. cbn. lia.
Qed.

Lemma step_LI c a c' : sane a -> LI c -> step c a = Some c' -> LI c'.
Proof.
  intros SA I E. pose proof I as (N & LL & F).
  destruct a as [n now| |n|n|n|n|n|n|n now|n|n|n|n k|n i|n i|n i|n p l s fo|n|n|n m]; cbn [step] in E;
    try (destruct (N n) as (D & FI & P1 & P2)); try set (x := nodes c n) in *.
  - destruct (_ && _); [|discriminate]. apply (f_equal (fun o => match o with Some c0 => LI c0 | None => False end)) in E; rewrite <- E; apply (LI_rl (set_node c n _)); apply (LI_node c n); auto.
    repeat split; cbn; auto. intros r R. inversion R; subst. cbn. lia.
  - inversion E; subst. exact I.
  - destruct (_ && _); [|discriminate]. inversion E; subst. apply LI_node; auto.
    repeat split; cbn; auto; intros r R.
    + destruct (lst x); discriminate.
    + destruct (tk x) eqn:Q; try discriminate. apply P2; congruence.
  - destruct (nth_error (log c) (applied x)) as [e|] eqn:EE; [|discriminate].
    destruct (_ || _); [|discriminate].
    destruct (apply_req (obj x) (healthy x) (e_req e)) as [[o' h'] ok] eqn:EA. inversion E; subst.
    apply LI_node; auto.
    assert (0 <= req_l (e_req e)). { rewrite Forall_forall in LL. apply LL. eapply nth_error_In; eauto. }
    repeat split; cbn; auto.
    + eapply apply_l; eauto.
    + intros r R. destruct (lst x) as [|?|?|?] eqn:Q; try discriminate; [apply P1; congruence|]. destruct (_ =? _)%nat; discriminate.
    + intros r R. destruct (tk x) as [|?|?] eqn:Q; try discriminate; [apply P2; congruence|]. destruct (_ =? _)%nat; discriminate.
  - destruct (lst x) eqn:Q; try discriminate. destruct (is_rleader c n); [|discriminate]. 
    apply (f_equal (fun o => match o with Some c0 => LI c0 | None => False end)) in E; rewrite <- E.
    apply (LI_log (set_node c n _) (mk_entry n r)); [|cbn; auto]. apply LI_node; auto.
    repeat split; cbn; auto. intros; discriminate.
  - assert (E' : c' = c \/ c' = set_node c n (mk_node (obj x) (healthy x) (flag x) (lead x) (applied x)
                 (LSret false) (ls_late x) (tk x) (tk_late x) (inflight x) (snap x))).
    { destruct (lst x); try discriminate; destruct (is_rleader c n); inversion E; auto. }
    destruct E' as [->| ->]; auto. apply LI_node; auto. repeat split; cbn; auto. intros; discriminate.
  - destruct (lst x) eqn:Q; try discriminate. destruct (Bool.eqb _ _); [|discriminate]. inversion E; subst.
    apply LI_node; auto. repeat split; cbn; auto. intros; discriminate.
  - destruct (lst x) eqn:Q; try discriminate. destruct (Bool.eqb _ _); [|discriminate]. inversion E; subst.
    apply LI_node; auto. repeat split; cbn; auto. intros; discriminate.
  - destruct (tk x) eqn:Q; try discriminate. destruct (flag x); [|inversion E; subst; auto].
    destruct (update_timestamp (obj x) now) as [r|] eqn:U; inversion E; subst; auto.
    apply LI_node; auto. repeat split; cbn; auto. intros r' R. inversion R; subst. rewrite (update_l _ _ _ U). lia.
  - destruct (tk x) eqn:Q; try discriminate. destruct (_ && _); [|discriminate]. 
    apply (f_equal (fun o => match o with Some c0 => LI c0 | None => False end)) in E; rewrite <- E.
    apply (LI_log (set_node c n _) (mk_entry n r)); [|cbn; auto]. apply LI_node; auto.
    repeat split; cbn; auto. intros; discriminate.
  - destruct (tk x) eqn:Q; try discriminate. destruct (_ && _); [|discriminate]. 
    apply (f_equal (fun o => match o with Some c0 => LI c0 | None => False end)) in E; rewrite <- E.
    apply (LI_log (set_node c n _) (mk_entry n r)); [|cbn; auto]. apply LI_node; auto.
    repeat split; cbn; auto. intros; discriminate.
  - destruct (is_rleader c n); [discriminate|]. inversion E; subst. apply LI_node; auto.
    repeat split; cbn; auto. intros; discriminate.
  - destruct (_ && _); inversion E; subst; auto. apply LI_node; auto.
    repeat split; cbn; auto. apply Forall_app; auto.
  - destruct (_ && _); [|discriminate]. eapply do_gen_LI; eauto.
  - destruct (_ && _); [discriminate|]. eapply do_gen_LI; eauto.
  - inversion E; subst. apply LI_node; auto. repeat split; cbn; auto. apply remove_nth_Forall; auto.
  - destruct (_ && _); [|discriminate]. inversion E; subst. apply LI_log; auto.
  - inversion E; subst. apply LI_node; auto. repeat split; cbn; auto.
  - apply (f_equal (fun o => match o with Some c0 => LI c0 | None => False end)) in E; rewrite <- E; apply (LI_rl (set_node c n _)); apply (LI_node c n); auto. repeat split; cbn; auto; try lia; intros; discriminate.
  - destruct (_ && _); [|discriminate]. inversion E; subst. apply LI_node; auto. repeat split; cbn; auto.
Qed.

Lemma run_LI ls : forall c c', Forall sane ls -> LI c -> run c ls = Some c' -> LI c'.
Proof.
  induction ls as [|a ls IH]; cbn; intros c c' F I E.
  - inversion E; subst; auto.
  - inversion F; subst. destruct (step c a) as [c0|] eqn:S0; [|discriminate].
    apply (IH c0 c'); auto. eapply step_LI; eauto.
Qed.
Lemma LI_init : LI init_cluster.
Proof. split; [|split]; cbn; auto. intros n. repeat split; cbn; auto; try lia; intros; discriminate. Qed.

Lemma usable ls c o p l : Forall sane ls -> run init_cluster ls = Some c -> In o (outs c) -> issued o p l ->
  0 <= l < 2 ^ 18.
Proof.
  intros F R I [_ H]. pose proof (run_LI ls _ _ F LI_init R) as (_ & _ & Q).
  rewrite Forall_forall in Q. destruct (Q o I) as (A & B & C). lia.
Qed.

Lemma pack_eq p l : pack p l = p * 2 ^ 18 + l.
Proof. unfold pack, logical_bits. rewrite Z.shiftl_mul_pow2 by lia. reflexivity. Qed.
Lemma pack_lt p l p' l' : 0 <= l < 2 ^ 18 -> 0 <= l' < 2 ^ 18 -> pack p l < pack p' l' <-> ts_lt p l p' l'.
Proof. intros. rewrite !pack_eq. unfold ts_lt. change (2 ^ 18) with 262144 in *. lia. Qed.

(* the ranges given to the clients of one batch *)
Lemma batch_ranges : forall cs p l, Forall (fun c => 0 < c) cs ->
  let rs := process_response p l cs in
  map (fun r => snd r) rs = cs /\
  (forall r, In r rs -> fst (fst r) = p /\ l <= snd (fst r) /\ snd (fst r) + snd r <= l + batch_count cs) /\
  (forall a r1 b r2 d, rs = a ++ r1 :: b ++ r2 :: d -> snd (fst r1) + snd r1 <= snd (fst r2)).
Proof.
  induction cs as [|c cs IH]; intros p l F; cbn [process_response batch_count map].
  - split; auto. split; [intros r []|]. intros [|]; discriminate.
  - inversion F; subst. destruct (IH p (l + c) H2) as (A & B & D).
    assert (NN : 0 <= batch_count cs).
    { clear -H2. induction H2; cbn [batch_count]; lia. }
    cbn [snd]. split; [f_equal; auto|]. split.
    + intros r [<-|Hr]; cbn; [lia|]. destruct (B r Hr) as (X1 & X2 & X3). split; auto. lia.
    + intros a r1 b r2 d E. destruct a as [|a0 a]; cbn in E; injection E as E1 E2.
      * subst r1. cbn. assert (Hr : In r2 (process_response p (l + c) cs)).
        { rewrite E2. apply in_or_app. right. left. auto. }
        destruct (B r2 Hr). lia.
      * eapply D; eauto.
Qed.

(* Store::get_tso *)
Local Arguments Z.shiftl : simpl never.
Fixpoint increasing_from (lo : Z) (l : list Z) : Prop :=
  match l with [] => True | x :: l' => lo <= x /\ increasing_from (x + 1) l' end.
Lemma increasing_from_le lo lo' l : lo' <= lo -> increasing_from lo l -> increasing_from lo' l.
Proof. destruct l; cbn; auto. intros. split; [lia|tauto]. Qed.

Fixpoint ranges_from (N lo : Z) (rs : list (Z * Z)) : Prop :=
  match rs with [] => True | (p, l) :: rs' => lo <= pack p l /\ ranges_from N (pack p l + N) rs' end.
Lemma ranges_from_le N lo lo' rs : lo' <= lo -> ranges_from N lo rs -> ranges_from N lo' rs.
Proof. destruct rs as [|[p l] rs]; cbn; auto. intros. split; [lia|tauto]. Qed.

Lemma store_calls_inc N : 0 < N -> forall cs s hi vs rs,
  0 <= sc_count s <= N -> (0 < sc_count s -> hi = pack (sc_p s) (sc_l s) + N) ->
  store_calls N s cs = (vs, rs) -> ranges_from N hi rs ->
  increasing_from (hi - sc_count s) vs /\
  (forall v, In v vs -> (hi - sc_count s <= v < hi) \/ exists p l, In (p, l) rs /\ pack p l <= v < pack p l + N).
Proof.
  intros HN. induction cs as [|[ex resp] cs IH]; intros s hi vs rs Hs Hh E R; cbn [store_calls] in E.
  - inversion E; subst. cbn. split; auto. intros v [].
  - destruct (store_get_tso N s ex resp) as [[v s'] asked] eqn:G.
    destruct (store_calls N s' cs) as [vs' rs'] eqn:E'. injection E as <- <-.
    unfold store_get_tso in G.
    destruct (negb (sc_p s =? 0) && negb (sc_l s =? 0) && (0 <? sc_count s) && negb ex) eqn:Q.
    + assert (0 < sc_count s). { rewrite !andb_true_iff in Q. destruct Q as [[_ Q] _]. apply Z.ltb_lt in Q. auto. }
      injection G as <- <- <-.
      change (Z.shiftl (sc_p s) logical_bits + sc_l s) with (pack (sc_p s) (sc_l s)).
      specialize (Hh H).
      destruct (IH (mk_sc (sc_p s) (sc_l s) (sc_count s - 1)) hi vs' rs') as [I1 I2]; auto; cbn [sc_count sc_p sc_l] in *; [lia|].
      split.
      * cbn [increasing_from]. split; [lia|]. eapply increasing_from_le; [|exact I1]. lia.
      * intros v [<-|Hv]; [left; lia|]. destruct (I2 v Hv) as [?|?]; [left; lia|auto].
    + destruct resp as [[p l]|].
      * injection G as <- <- <-. cbn [ranges_from] in R. destruct R as [R1 R2].
        change (Z.shiftl p logical_bits + l) with (pack p l).
        destruct (IH (mk_sc p l (N - 1)) (pack p l + N) vs' rs') as [I1 I2]; auto; cbn [sc_count sc_p sc_l] in *; [lia|].
        split.
        -- cbn [increasing_from]. split; [lia|]. eapply increasing_from_le; [|exact I1]. lia.
        -- intros v [<-|Hv]; [right; exists p, l; split; [left; auto|lia]|].
           destruct (I2 v Hv) as [?|(p' & l' & Hin & ?)]; right.
           ++ exists p, l. split; [left; auto|lia].
           ++ exists p', l'. split; [right; auto|lia].
      * injection G as <- <- <-. apply (IH s hi vs' rs'); auto.
Qed.

Lemma increasing_NoDup : forall l lo, increasing_from lo l -> NoDup l /\ forall x, In x l -> lo <= x.
Proof.
  induction l as [|x l IH]; intros lo H; cbn in H.
  - split; [constructor|intros ? []].
  - destruct H as [H1 H2]. destruct (IH _ H2) as [A B]. split.
    + constructor; auto. intros I. specialize (B x I). lia.
    + intros y [<-|Hy]; [lia|]. specialize (B y Hy). lia.
Qed.

(* fetched ranges, each starting where the previous one ended or later *)
Fixpoint ranges_increase (N : Z) (rs : list (Z * Z)) : Prop :=
  match rs with
  | [] => True
  | (p, l) :: rs' => (forall p' l', In (p', l') rs' -> pack p l + N <= pack p' l') /\ ranges_increase N rs'
  end.
Lemma ranges_increase_from N rs : forall lo, (forall p l, In (p, l) rs -> lo <= pack p l) -> ranges_increase N rs -> ranges_from N lo rs.
Proof.
  induction rs as [|[p l] rs IH]; intros lo H R; cbn in *; auto. destruct R as [R1 R2].
  split; [apply H; auto|]. apply IH; auto.
Qed.
Lemma store_calls_from_start N cs vs rs : 0 < N -> store_calls N (mk_sc 0 0 0) cs = (vs, rs) ->
  ranges_increase N rs ->
  NoDup vs /\ (forall v, In v vs -> exists p l, In (p, l) rs /\ pack p l <= v < pack p l + N).
Proof.
  intros HN E R.
  set (hi := match rs with (p, l) :: _ => pack p l | [] => 0 end).
  destruct (store_calls_inc N HN cs (mk_sc 0 0 0) hi vs rs) as [A B]; auto; cbn [sc_count] in *; try lia.
  { destruct rs as [|[p l] rs]; cbn [ranges_from]; auto. destruct R as [R1 R2].
    split; [apply Z.le_refl|]. apply ranges_increase_from; auto. }
  split; [eapply increasing_NoDup; eauto|]. intros v Hv. destruct (B v Hv) as [Q|Q]; auto. lia.
Qed.
