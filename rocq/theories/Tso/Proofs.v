From Verif.Tso Require Import Model Spec.
Local Open Scope Z_scope.

(* ---- the log as a function of position ---- *)
Definition e_p (e : entry) := match e_req e with RUpdate p _ _ => p | RReset p _ _ _ => p end.
Definition e_s (e : entry) := match e_req e with RUpdate _ _ s => s | RReset _ _ s _ => s end.
Definition dflt := mk_entry 0 (RUpdate 0 0 0).
Definition phy (l : list entry) (k : nat) : Z := match k with O => 0 | S j => e_p (nth j l dflt) end.
Definition sav (l : list entry) (k : nat) : Z := match k with O => 0 | S j => e_s (nth j l dflt) end.

Definition good_req (l : list entry) (k : nat) (r : req) : Prop :=
  exists p s, r = RUpdate p 0 s /\ phy l k < p /\ sav l k <= s /\ p <= s.
Definition good_log (l : list entry) : Prop :=
  forall k, (k < length l)%nat -> good_req l k (e_req (nth k l dflt)).

Lemma phy_app l e k : (k <= length l)%nat -> phy (l ++ [e]) k = phy l k.
Proof. destruct k; cbn; auto. intros. rewrite app_nth1 by lia. reflexivity. Qed.
Lemma sav_app l e k : (k <= length l)%nat -> sav (l ++ [e]) k = sav l k.
Proof. destruct k; cbn; auto. intros. rewrite app_nth1 by lia. reflexivity. Qed.
Lemma good_app l e : good_log l -> good_req l (length l) (e_req e) -> good_log (l ++ [e]).
Proof.
  intros G (p & s & R & A & B & C) k Hk. rewrite app_length in Hk. cbn in Hk.
  destruct (Nat.eq_dec k (length l)) as [->|N].
  - rewrite app_nth2, Nat.sub_diag by lia. exists p, s. cbn. rewrite phy_app, sav_app by lia. auto.
  - rewrite app_nth1 by lia. destruct (G k ltac:(lia)) as (p' & s' & R' & A' & B' & C').
    exists p', s'. rewrite phy_app, sav_app by lia. auto.
Qed.

Lemma phy_step l k : good_log l -> (k < length l)%nat -> phy l k < phy l (S k) /\ sav l k <= sav l (S k)
  /\ phy l (S k) <= sav l (S k).
Proof.
  intros G H. destruct (G k H) as (p & s & R & A & B & C). cbn [phy sav]. unfold e_p, e_s. rewrite R. lia.
Qed.
Lemma phy_lt l k k' : good_log l -> (k < k')%nat -> (k' <= length l)%nat -> phy l k < phy l k'.
Proof.
  intros G. induction k'; intros; [lia|]. pose proof (phy_step l k' G ltac:(lia)).
  destruct (Nat.eq_dec k k') as [->|]; [lia|]. specialize (IHk' ltac:(lia) ltac:(lia)). lia.
Qed.
Lemma phy_le_sav l k : good_log l -> (k <= length l)%nat -> phy l k <= sav l k.
Proof. intros G H. destruct k; [cbn; lia|]. apply (phy_step l k G). lia. Qed.
Lemma sav_nonneg l k : good_log l -> (k <= length l)%nat -> 0 <= phy l k /\ 0 <= sav l k.
Proof.
  intros G. induction k; intros H; [cbn; lia|]. pose proof (phy_step l k G ltac:(lia)). specialize (IHk ltac:(lia)). lia.
Qed.

(* ---- the invariant ---- *)
Definition o_end (o : out) := o_l o + o_count o.

Definition node_inv (c : cluster) (n : Z) (x : node) : Prop :=
  let L := log c in
  (applied x <= length L)%nat /\
  last_save (obj x) = sav L (applied x) /\
  cur_p (obj x) <= phy L (applied x) /\
  0 <= cur_l (obj x) /\
  (fst (snap x) <= length L)%nat /\ snd (snap x) = sav L (fst (snap x)) /\
  Forall (fun k => 0 < k) (inflight x).

(* the node may serve: its object reflects its own last entry *)
Definition serving (x : node) : Prop := flag x = true /\ healthy x = true \/ lst x = LSret true /\ lead x = true.

Record lead_inv (c : cluster) (n : Z) (x : node) : Prop := mk_li {
  li_flag : flag x = true -> lead x = true /\ lst x = LSidle;
  li_late : ls_late x = true -> exists ok, lst x = LSret ok;
  li_lst : lst x <> LSidle -> ls_late x = false -> lead x = true;
  li_tk : tk x <> TKnone -> tk_late x = false -> flag x = true;
  li_tklate : tk_late x = true -> exists r, tk x = TKpend r;
  li_leadflag : lead x = true -> lst x = LSidle -> flag x = true;
  li_leadlate : lead x = true -> ls_late x = false;
  li_outs : lead x = true -> forall o, In o (outs c) -> o_node o = n -> (o_idx o <= applied x)%nat;
  li_serv : lead x = true -> serving x ->
     (exists j, applied x = S j /\ e_who (nth j (log c) dflt) = n) /\
     cur_p (obj x) = phy (log c) (applied x) /\
     forall o, In o (outs c) -> o_node o = n -> o_idx o = applied x -> o_end o <= cur_l (obj x);
  li_rl : rleader c = Some n -> lead x = true /\
     match lst x with
     | LSpend r => applied x = length (log c) /\ good_req (log c) (length (log c)) r
     | LSwait i => applied x = i /\ length (log c) = S i
     | LSret ok => (ok = true /\ applied x = length (log c)) /\ cur_p (obj x) = phy (log c) (applied x)
     | LSidle => match tk x with
                 | TKwait i => applied x = i /\ length (log c) = S i /\ e_who (nth i (log c) dflt) = n
                 | TKpend r => applied x = length (log c) /\ (tk_late x = false -> good_req (log c) (length (log c)) r)
                 | TKnone => applied x = length (log c)
                 end /\ cur_p (obj x) = phy (log c) (applied x)
     end }.

Definition outs_inv (c : cluster) : Prop :=
  (forall o, In o (outs c) ->
     (exists j, o_idx o = S j /\ (j < length (log c))%nat /\ e_who (nth j (log c) dflt) = o_node o) /\
     o_p o = phy (log c) (o_idx o) /\ 0 < o_count o /\ 0 <= o_l o) /\
  (forall o1 o2, answered_before c o1 o2 ->
     (o_idx o1 = o_idx o2 -> o_end o1 <= o_l o2) /\
     (o_node o1 = o_node o2 -> (o_idx o1 <= o_idx o2)%nat) /\
     (o_fresh o2 = true -> (o_idx o1 <= o_idx o2)%nat)).

Definition Inv (c : cluster) : Prop :=
  good_log (log c) /\ (forall n, node_inv c n (nodes c n)) /\ (forall n, lead_inv c n (nodes c n)) /\ outs_inv c.

Lemma Inv_init : Inv init_cluster.
Proof.
  split; [|split; [|split]].
  - intros k Hk. cbn in Hk. lia.
  - intros n. unfold node_inv. cbn. repeat split; auto; lia.
  - intros n. constructor; cbn; try congruence; try (intros; discriminate).
  - split.
    + intros o [].
    + intros o1 o2 (a & b & d & E). cbn in E. destruct a; discriminate.
Qed.

(* ---- frame lemmas ---- *)
Lemma li_frame c c' n x :
  log c' = log c -> outs c' = outs c -> (rleader c' = Some n -> rleader c = Some n) ->
  lead_inv c n x -> lead_inv c' n x.
Proof.
  intros EL EO ER [H1 H2 H3 H4 H5 H6 H7 H8 H9 H10].
  constructor; try assumption; rewrite ?EL, ?EO; auto.
Qed.
Lemma ni_frame c c' n x : log c' = log c -> node_inv c n x -> node_inv c' n x.
Proof. intros EL. unfold node_inv. rewrite EL. auto. Qed.

Lemma good_req_app L e k r : (k <= length L)%nat -> good_req L k r -> good_req (L ++ [e]) k r.
Proof. intros H (p & s & R & A & B & C). exists p, s. rewrite phy_app, sav_app by lia. auto. Qed.

Lemma ni_app c e c' n x : log c' = log c ++ [e] -> node_inv c n x -> node_inv c' n x.
Proof.
  intros EL (A & B & C & D & E & F & G). unfold node_inv. rewrite EL, app_length. cbn.
  rewrite !sav_app, phy_app by lia. repeat split; auto; lia.
Qed.
(* another node commits an entry *)
Lemma li_app c e c' n x : log c' = log c ++ [e] -> outs c' = outs c -> rleader c' <> Some n ->
  node_inv c n x -> lead_inv c n x -> lead_inv c' n x.
Proof.
  intros EL EO ER (A & _) [H1 H2 H3 H4 H5 H6 H7 H8 H9 H10].
  constructor; try assumption; rewrite ?EL, ?EO; auto; try congruence.
  intros HL HS. destruct (H9 HL HS) as ((j & Ej & Ew) & Ep & Eo).
  split; [exists j; split; auto; rewrite app_nth1 by lia; auto|]. split; auto. rewrite phy_app by lia. auto.
Qed.

Lemma oi_frame c c' : log c' = log c -> outs c' = outs c -> outs_inv c -> outs_inv c'.
Proof. intros EL EO. unfold outs_inv, answered_before. rewrite EL, EO. auto. Qed.
Lemma oi_app c e c' : log c' = log c ++ [e] -> outs c' = outs c -> outs_inv c -> outs_inv c'.
Proof.
  intros EL EO [A B]. split.
  - rewrite EO, EL. intros o Ho. destruct (A o Ho) as ((j & Ej & Hj & Ew) & Ep & Ec).
    split; [|split; auto]. { exists j. rewrite app_length. cbn. rewrite app_nth1 by lia. repeat split; auto. lia. }
    rewrite phy_app by lia. auto.
  - unfold answered_before. rewrite EO. auto.
Qed.

Lemma nodes_set c n x m : nodes (set_node c n x) m = if m =? n then x else nodes c m.
Proof. reflexivity. Qed.

(* one node changes, nothing is appended to the log or answered *)
Lemma Inv_node c c' n x :
  log c' = log c -> outs c' = outs c -> nodes c' = nodes (set_node c n x) ->
  (forall m, m <> n -> rleader c' = Some m -> rleader c = Some m) ->
  Inv c -> node_inv c' n x -> lead_inv c' n x -> Inv c'.
Proof.
  intros EL EO EN ER (G & N & Ld & O) Hn Hl. split; [|split; [|split]].
  - rewrite EL. auto.
  - intros m. rewrite EN, nodes_set. destruct (Z.eqb_spec m n); [subst; auto|]. eapply ni_frame; eauto.
  - intros m. rewrite EN, nodes_set. destruct (Z.eqb_spec m n); [subst; auto|]. eapply li_frame; eauto.
  - eapply oi_frame; eauto.
Qed.
(* node n appends an entry *)
Lemma Inv_append c c' n e x :
  log c' = log c ++ [e] -> outs c' = outs c -> nodes c' = nodes (set_node c n x) ->
  rleader c' = Some n ->
  Inv c -> good_req (log c) (length (log c)) (e_req e) ->
  node_inv c n x -> lead_inv c' n x -> Inv c'.
Proof.
  intros EL EO EN ER (G & N & Ld & O) GR Hn Hl. split; [|split; [|split]].
  - rewrite EL. apply good_app; auto.
  - intros m. rewrite EN, nodes_set. destruct (Z.eqb_spec m n); [subst|]; eapply ni_app; eauto.
  - intros m. rewrite EN, nodes_set. destruct (Z.eqb_spec m n); [subst; auto|].
    eapply li_app; eauto. rewrite ER. congruence.
  - eapply oi_app; eauto.
Qed.

Lemma apply_good o h L k e : good_req L k (e_req e) -> last_save o = sav L k -> cur_p o <= phy L k ->
  exists p s, e_req e = RUpdate p 0 s /\ apply_req o h (e_req e) = (mk_obj p 0 s, h, true).
Proof.
  intros (p & s & R & A & B & C) E1 E2. exists p, s. split; auto. rewrite R. cbn. unfold update_tso.
  replace (s <? last_save o) with false by (symmetry; apply Z.ltb_ge; lia).
  replace (p <? cur_p o) with false by (symmetry; apply Z.ltb_ge; lia). reflexivity.
Qed.

Lemma is_rl c n : is_rleader c n = true <-> rleader c = Some n.
Proof.
  unfold is_rleader. destruct (rleader c) as [m|]; [|easy]. rewrite Z.eqb_eq. split; [intros ->; auto|intros E; congruence].
Qed.
Lemma is_rl_f c n : is_rleader c n = false <-> rleader c <> Some n.
Proof. rewrite <- is_rl. destruct (is_rleader c n); split; congruence. Qed.

Ltac li H := destruct H as [Hflag Hlate Hlst Htk Htkl Hlf Hll Houts Hserv Hrl].
Ltac proj := cbn [obj healthy flag lead applied lst ls_late tk tk_late inflight snap log nodes rleader outs set_node] in *.

Lemma step_Elect c n now c' : Inv c -> step c (Elect n now) = Some c' -> Inv c'.
Proof.
  intros I E. cbn in E. set (x := nodes c n) in *.
  destruct (negb (lead x)) eqn:EL; [|discriminate]. apply negb_true_iff in EL.
  destruct (applied x =? length (log c))%nat eqn:EA; [|discriminate]. apply Nat.eqb_eq in EA.
  destruct (lst x) eqn:ES; try discriminate. cbn in E. inversion E; subst c'; clear E.
  pose proof I as (G & N & Ld & O). pose proof (N n) as Nn. pose proof (Ld n) as Ln. fold x in Nn, Ln.
  eapply Inv_node with (n := n) (c := c); [reflexivity..| | |exact Nn|]; auto.
  - cbn. intros m Hm Em. congruence.
  - li Ln. assert (FF : flag x = false). { destruct (flag x); auto. destruct Hflag; congruence. }
    constructor; proj; auto; try congruence; try easy.
    + intros _ o Ho Hon. destruct O as [OA _]. destruct (OA o Ho) as ((j & Ej & Hj & _) & _). lia.
    + intros _ [[? ?]|[? ?]]; proj; congruence.
    + intros _. split; auto. split; auto. unfold good_req, leader_start_req.
      destruct Nn as (A & B & C & D & _). rewrite EA in *.
      pose proof (phy_le_sav (log c) (length (log c)) G ltac:(lia)).
      unfold guard_ms, save_interval_ms.
      destruct (now <? last_save (obj x) + 1) eqn:EN; [apply Z.ltb_lt in EN|apply Z.ltb_ge in EN];
      (do 2 eexists; split; [reflexivity|]; lia).
Qed.

Lemma step_Lose c c' : Inv c -> step c Lose = Some c' -> Inv c'.
Proof.
  intros (G & N & Ld & O) E. inversion E; subst; clear E. split; [|split; [|split]]; proj; auto.
  intros n. eapply li_frame; [..|apply (Ld n)]; auto. cbn. congruence.
Qed.

Lemma step_Stop c n c' : Inv c -> step c (Stop n) = Some c' -> Inv c'.
Proof.
  intros I E. cbn in E. set (x := nodes c n) in *.
  destruct (lead x) eqn:EL; [|discriminate]. destruct (is_rleader c n) eqn:ER; [discriminate|].
  apply is_rl_f in ER. cbn in E. inversion E; subst c'; clear E.
  pose proof I as (G & N & Ld & O). pose proof (N n) as Nn. pose proof (Ld n) as Ln. fold x in Nn, Ln.
  eapply Inv_node with (n := n) (c := c); [reflexivity..| | |exact Nn|]; auto.
  li Ln. constructor; proj; auto; try congruence.
  - destruct (lst x) eqn:S1; intros; eauto; try (destruct (Hlate H); congruence).
  - destruct (lst x) eqn:S1; intros; try congruence.
  - destruct (tk x) eqn:S1; intros; try congruence.
  - destruct (tk x) eqn:S1; intros; eauto; try (destruct (Htkl H); congruence).
Qed.

Lemma step_Apply c n c' : Inv c -> step c (Apply n) = Some c' -> Inv c'.
Proof.
  intros I E. cbn in E. set (x := nodes c n) in *.
  destruct (nth_error (log c) (applied x)) as [e|] eqn:EE; [|discriminate].
  pose proof (nth_error_nth _ _ dflt EE) as En.
  assert (HL : (applied x < length (log c))%nat) by (apply nth_error_Some; congruence).
  destruct (negb (lead x) || (e_who e =? n)) eqn:EW; [|discriminate].
  pose proof I as (G & N & Ld & O). pose proof (N n) as Nn. pose proof (Ld n) as Ln. fold x in Nn, Ln.
  pose proof (G _ HL) as GR. rewrite En in GR.
  destruct Nn as (A & B & C & D & S1 & S2 & F).
  destruct (apply_good (obj x) (healthy x) _ _ _ GR B C) as (p & s & R & EA). rewrite EA in E.
  inversion E; subst c'; clear E.
  assert (Ep : phy (log c) (S (applied x)) = p) by (cbn; rewrite En; unfold e_p; rewrite R; auto).
  assert (Es : sav (log c) (S (applied x)) = s) by (cbn; rewrite En; unfold e_s; rewrite R; auto).
  eapply Inv_node with (n := n) (c := c); [reflexivity..| | | |]; auto.
  { unfold node_inv. proj. cbn [cur_p cur_l last_save]. rewrite Ep, Es. repeat split; auto; lia. }
  assert (EWn : lead x = true -> e_who e = n).
  { intros Q. rewrite Q in EW. cbn in EW. apply Z.eqb_eq; auto. }
  li Ln. constructor; proj; auto; cbn [cur_p cur_l last_save].
  - intros FL. destruct (Hflag FL) as [X1 X2]. rewrite X2. auto.
  - intros LT. destruct (Hlate LT) as [ok Q]. rewrite Q. eauto.
  - destruct (lst x) eqn:Q; intros; try congruence; apply Hlst; auto; congruence.
  - intros T1 T2. apply Htk; auto. destruct (tk x); congruence.
  - intros T. destruct (Htkl T) as [r Q]. rewrite Q. eauto.
  - intros L1 L2. apply Hlf; auto. destruct (lst x); auto; try congruence.
    destruct (i =? applied x)%nat; congruence.
  - intros L1 _. split; [exists (applied x); split; auto; rewrite En; auto|]. split; auto.
    intros o Ho Hon Hi. specialize (Houts L1 o Ho Hon). lia.
  - intros RL. destruct (Hrl RL) as [X1 X2]. split; auto.
    destruct (lst x) as [|r|i|ok] eqn:Q.
    + split; [|rewrite Ep; reflexivity]. destruct X2 as [X2 _].
      destruct (tk x) as [|r|i] eqn:Q2; [lia..|]. destruct X2 as (X2 & X3 & X4).
      subst i. rewrite Nat.eqb_refl. lia.
    + lia.
    + destruct X2 as [X2 X3]. subst i. rewrite Nat.eqb_refl. split; auto.
    + lia.
Qed.

Lemma step_LsCommit c n c' : Inv c -> step c (LsCommit n) = Some c' -> Inv c'.
Proof.
  intros I E. cbn in E. set (x := nodes c n) in *.
  destruct (lst x) as [|r| |] eqn:ES; try discriminate.
  destruct (is_rleader c n) eqn:ER; [|discriminate]. apply is_rl in ER. inversion E; subst c'; clear E.
  pose proof I as (G & N & Ld & O). pose proof (N n) as Nn. pose proof (Ld n) as Ln. fold x in Nn, Ln.
  li Ln. destruct (Hrl ER) as [HL HR]. rewrite ES in HR. destruct HR as [HA HG].
  eapply Inv_append with (n := n) (c := c) (e := mk_entry n r); [reflexivity..| | | |exact Nn|]; auto.
  assert (FF : flag x = false). { destruct (flag x); auto. destruct Hflag; congruence. }
  constructor; proj; auto; try congruence; try easy.
  - intros LT. destruct (Hlate LT). congruence.
  - intros _ [[? ?]|[? ?]]; proj; congruence.
  - intros _. split; auto. rewrite app_length. cbn. lia.
Qed.

Lemma step_LsFail c n c' : Inv c -> step c (LsFail n) = Some c' -> Inv c'.
Proof.
  intros I E. cbn in E. set (x := nodes c n) in *.
  assert (HX : (exists r, lst x = LSpend r) \/ (exists i, lst x = LSwait i)).
  { destruct (lst x); try discriminate; eauto. }
  assert (E' : is_rleader c n = false /\ Some c' = Some (set_node c n
     (mk_node (obj x) (healthy x) (flag x) (lead x) (applied x)
                 (LSret false) (ls_late x) (tk x) (tk_late x) (inflight x) (snap x)))).
  { destruct (lst x); try discriminate; destruct (is_rleader c n); try discriminate; auto. }
  clear E. destruct E' as [ER E]. apply is_rl_f in ER. inversion E; subst c'; clear E.
  pose proof I as (G & N & Ld & O). pose proof (N n) as Nn. pose proof (Ld n) as Ln. fold x in Nn, Ln.
  eapply Inv_node with (n := n) (c := c); [reflexivity..| | |exact Nn|]; auto.
  li Ln.
  assert (FF : flag x = false).
  { destruct (flag x); auto. destruct Hflag; auto. destruct HX as [[? ?]|[? ?]]; congruence. }
  assert (LL : ls_late x = false).
  { destruct (ls_late x); auto. destruct Hlate; auto. destruct HX as [[? ?]|[? ?]]; congruence. }
  constructor; proj; auto; try congruence.
  - intros _ _. apply Hlst; auto. destruct HX as [[? ?]|[? ?]]; congruence.
  - intros _ [[? ?]|[? ?]]; proj; congruence.
Qed.

Lemma step_LsStore c n c' : Inv c -> step c (LsStore n) = Some c' -> Inv c'.
Proof.
  intros I E. cbn in E. set (x := nodes c n) in *.
  destruct (lst x) as [| | |ok] eqn:ES; try discriminate.
  destruct (ls_late x) eqn:EL; [discriminate|]. cbn in E. inversion E; subst c'; clear E.
  pose proof I as (G & N & Ld & O). pose proof (N n) as Nn. pose proof (Ld n) as Ln. fold x in Nn, Ln.
  eapply Inv_node with (n := n) (c := c); [reflexivity..| | |exact Nn|]; auto.
  li Ln.
  assert (HL : lead x = true) by (apply Hlst; congruence).
  assert (FF : flag x = false). { destruct (flag x); auto. destruct Hflag; congruence. }
  constructor; proj; auto; try congruence.
  - intros _ [[A B]|[A B]]; proj; [|congruence]. apply Hserv; auto. right.
    apply andb_prop in B. destruct B; subst. auto.
  - intros R. destruct (Hrl R) as [_ X]. rewrite ES in X. destruct X as [[-> X] XP]. split; auto. split; auto.
    destruct (tk x) eqn:ET; auto.
    + split; auto. intros Q. specialize (Htk ltac:(congruence) Q). congruence.
    + destruct (tk_late x) eqn:Q; [destruct (Htkl eq_refl); congruence|].
      specialize (Htk ltac:(congruence) eq_refl). congruence.
Qed.

Lemma update_good L k o now r : good_log L -> (k <= length L)%nat -> cur_p o = phy L k -> last_save o = sav L k ->
  update_timestamp o now = Some r -> good_req L k r.
Proof.
  intros G H E1 E2 E. unfold update_timestamp in E.
  destruct (if guard_ms <? now - cur_p o then Some now
            else if max_logical / 2 <? cur_l o then Some (cur_p o + guard_ms) else None) as [next|] eqn:EN; [|discriminate].
  assert (HN : cur_p o < next).
  { destruct (guard_ms <? now - cur_p o) eqn:Q; unfold guard_ms in *.
    - apply Z.ltb_lt in Q. inversion EN; subst. lia.
    - destruct (max_logical / 2 <? cur_l o); inversion EN; lia. }
  inversion E; subst r. unfold good_req, guard_ms, save_interval_ms.
  do 2 eexists. split; [reflexivity|].
  destruct (last_save o - next <=? 1) eqn:Q; [apply Z.leb_le in Q|apply Z.leb_gt in Q]; lia.
Qed.

Lemma step_Tick c n now c' : Inv c -> step c (Tick n now) = Some c' -> Inv c'.
Proof.
  intros I E. cbn in E. set (x := nodes c n) in *.
  destruct (tk x) eqn:ET; try discriminate.
  destruct (flag x) eqn:EF; [|inversion E; subst; auto].
  destruct (update_timestamp (obj x) now) as [r|] eqn:EU; [|inversion E; subst; auto].
  inversion E; subst c'; clear E.
  pose proof I as (G & N & Ld & O). pose proof (N n) as Nn. pose proof (Ld n) as Ln. fold x in Nn, Ln.
  eapply Inv_node with (n := n) (c := c); [reflexivity..| | |exact Nn|]; auto.
  li Ln. destruct (Hflag EF) as [HL HS].
  constructor; proj; auto; try congruence.
  { intros L1 S1. apply Hserv; auto. unfold serving in *. proj. rewrite EF. exact S1. }
  intros R. destruct (Hrl R) as [_ X]. rewrite HS, ET in X. destruct X as [X1 X2].
  split; auto. rewrite HS. split; auto. split; auto.
  intros _. destruct Nn as (A & B & _). rewrite <- X1. eapply update_good; eauto.
Qed.

Lemma step_TickCommit c n c' : Inv c -> step c (TickCommit n) = Some c' -> Inv c'.
Proof.
  intros I E. cbn in E. set (x := nodes c n) in *.
  destruct (tk x) as [|r|] eqn:ET; try discriminate.
  destruct (is_rleader c n) eqn:ER; [|discriminate]. apply is_rl in ER.
  destruct (tk_late x) eqn:EL; [discriminate|]. cbn in E.
  inversion E; subst c'; clear E.
  pose proof I as (G & N & Ld & O). pose proof (N n) as Nn. pose proof (Ld n) as Ln. fold x in Nn, Ln.
  li Ln. specialize (Htk ltac:(congruence) EL). destruct (Hflag Htk) as [_ HS].
  destruct (Hrl ER) as [HL HR]. rewrite HS, ET in HR. destruct HR as [[HA HG] HP]. specialize (HG EL).
  eapply Inv_append with (n := n) (c := c) (e := mk_entry n r); [reflexivity..| | | |exact Nn|]; auto.
  assert (HB := proj1 Nn).
  constructor; proj; auto; try congruence.
  - intros L1 S1. destruct (Hserv L1 S1) as ((j & Ej & Ew) & Ep & Eo).
    split; [exists j; split; auto; rewrite app_nth1 by lia; auto|]. split; auto. rewrite phy_app by lia. auto.
  - intros _. split; auto. rewrite HS. rewrite app_length, phy_app by lia. cbn. split; auto. split; auto. split; [lia|].
    rewrite app_nth2, Nat.sub_diag by lia. reflexivity.
Qed.

Lemma step_TickDrop c n c' : Inv c -> step c (TickDrop n) = Some c' -> Inv c'.
Proof.
  intros I E. cbn in E. set (x := nodes c n) in *.
  destruct (is_rleader c n) eqn:ER; [discriminate|]. apply is_rl_f in ER. inversion E; subst c'; clear E.
  pose proof I as (G & N & Ld & O). pose proof (N n) as Nn. pose proof (Ld n) as Ln. fold x in Nn, Ln.
  eapply Inv_node with (n := n) (c := c); [reflexivity..| | |exact Nn|]; auto.
  li Ln. constructor; proj; auto; try congruence.
Qed.

Lemma remove_nth_Forall (P : Z -> Prop) i l : Forall P l -> Forall P (remove_nth i l).
Proof. intros F. revert i. induction F; intros [|i]; cbn; auto. Qed.

(* changes to the list of requests in flight and to the snapshot only *)
Lemma Inv_inflight c n infl sn : Inv c ->
  Forall (fun k => 0 < k) infl -> (fst sn <= length (log c))%nat -> snd sn = sav (log c) (fst sn) ->
  let x := nodes c n in
  Inv (set_node c n (mk_node (obj x) (healthy x) (flag x) (lead x) (applied x) (lst x) (ls_late x)
          (tk x) (tk_late x) infl sn)).
Proof.
  intros I F S1 S2 x. pose proof I as (G & N & Ld & O). pose proof (N n) as Nn. pose proof (Ld n) as Ln. fold x in Nn, Ln.
  eapply Inv_node with (n := n) (c := c); [reflexivity..| | | |]; auto.
  - destruct Nn as (A & B & C & D & _). unfold node_inv. proj. auto 10.
  - li Ln. constructor; proj; auto.
Qed.

Lemma step_GenReq c n k c' : 0 < k -> Inv c -> step c (GenReq n k) = Some c' -> Inv c'.
Proof.
  intros K I E. cbn in E. set (x := nodes c n) in *.
  destruct (flag x && gen_check (healthy x) k); inversion E; subst; auto.
  pose proof I as (G & N & Ld & O). destruct (N n) as (A & B & C & D & S1 & S2 & F). fold x in S1, S2, F.
  apply Inv_inflight; auto. apply Forall_app; auto.
Qed.
Lemma step_GenDrop c n i c' : Inv c -> step c (GenDrop n i) = Some c' -> Inv c'.
Proof.
  intros I E. cbn in E. set (x := nodes c n) in *. inversion E; subst.
  pose proof I as (G & N & Ld & O). destruct (N n) as (A & B & C & D & S1 & S2 & F). fold x in S1, S2, F.
  apply Inv_inflight; auto. apply remove_nth_Forall; auto.
Qed.
Lemma step_Snap c n c' : Inv c -> step c (Snap n) = Some c' -> Inv c'.
Proof.
  intros I E. cbn in E. set (x := nodes c n) in *. inversion E; subst.
  pose proof I as (G & N & Ld & O). destruct (N n) as (A & B & C & D & S1 & S2 & F). fold x in A, B, S1, S2, F.
  apply Inv_inflight; auto.
Qed.

Lemma step_Restart c n c' : Inv c -> step c (Restart n) = Some c' -> Inv c'.
Proof.
  intros I E. cbn in E. set (x := nodes c n) in *. inversion E; subst c'; clear E.
  pose proof I as (G & N & Ld & O). pose proof (N n) as Nn. fold x in Nn.
  eapply Inv_node with (n := n) (c := c); [reflexivity..| | | |]; auto.
  - cbn. intros m Hm. destruct (is_rleader c n); congruence.
  - destruct Nn as (A & B & C & D & S1 & S2 & F). unfold node_inv. proj. cbn [cur_p cur_l last_save].
    pose proof (sav_nonneg (log c) _ G S1). repeat split; auto; lia.
  - constructor; proj; try congruence. intros R. exfalso.
    destruct (is_rleader c n) eqn:Q; [congruence|]. apply is_rl_f in Q. congruence.
Qed.

Lemma step_Install c n m c' : Inv c -> step c (Install n m) = Some c' -> Inv c'.
Proof.
  intros I E. cbn [step] in E. set (x := nodes c n) in *. set (s := snap (nodes c m)) in *.
  destruct (lead x) eqn:EL; [discriminate|]. destruct (applied x <? fst s)%nat eqn:EA; [|cbn in E; discriminate].
  apply Nat.ltb_lt in EA. destruct (lst x) eqn:ES; try discriminate. cbn in E. inversion E; subst c'; clear E.
  pose proof I as (G & N & Ld & O). pose proof (N n) as Nn. pose proof (Ld n) as Ln. fold x in Nn, Ln.
  pose proof (N m) as Nm.
  eapply Inv_node with (n := n) (c := c); [reflexivity..| | | |]; auto.
  - destruct Nn as (A & B & C & D & S1 & S2 & F). destruct Nm as (_ & _ & _ & _ & T1 & T2 & _). fold s in T1, T2.
    unfold node_inv. proj. cbn [cur_p cur_l last_save].
    pose proof (phy_lt (log c) _ _ G EA T1). repeat split; auto; lia.
  - li Ln. constructor; proj; auto; try congruence.
    + intros FF. exfalso. destruct (Hflag FF). congruence.
    + intros LT. destruct (Hlate LT). congruence.
    + intros R. destruct (Hrl R). congruence.
Qed.

Lemma step_GenTry c n i c' : Inv c -> step c (GenTry n i) = Some c' -> Inv c'.
Proof.
  intros I E. cbn in E. unfold do_gen in E. set (x := nodes c n) in *.
  destruct (flag x) eqn:EF; [|discriminate]. destruct (healthy x) eqn:EH; [|discriminate]. cbn in E.
  destruct (nth_error (inflight x) i) as [cnt|] eqn:EN; [|discriminate].
  pose proof I as (G & N & Ld & O). pose proof (N n) as Nn. pose proof (Ld n) as Ln. fold x in Nn, Ln.
  destruct Nn as (A & B & C & D & S1 & S2 & F).
  assert (HC : 0 < cnt). { rewrite Forall_forall in F. apply F. eapply nth_error_In; eauto. }
  unfold gen_try in E. destruct (negb (cur_p (obj x) =? 0)); [|inversion E; subst; auto].
  destruct ((2 ^ 63 - 1 <? cur_l (obj x) + cnt) || (cur_l (obj x) + cnt <? - 2 ^ 63)); [discriminate|].
  destruct (cur_l (obj x) + cnt <? max_logical) eqn:EM; [|inversion E; subst; auto].
  inversion E; subst c'; clear E.
  pose proof Ln as Ln0. li Ln. destruct (Hflag EF) as [HL HS].
  assert (SV : serving x) by (left; auto).
  destruct (Hserv HL SV) as ((j & Ej & Ew) & Ep & Eo). clear Hserv.
  set (o := mk_out n (cur_p (obj x)) (cur_l (obj x)) cnt (applied x) (is_rleader c n)).
  assert (HO : forall o', In o' (outs c) -> (o_idx o' = applied x -> o_node o' = n)).
  { intros o' Ho' Hi. destruct O as [OA _]. destruct (OA o' Ho') as ((j' & Ej' & _ & Ew') & _).
    rewrite Hi, Ej in Ej'. injection Ej' as <-. congruence. }
  split; [|split; [|split]].
  - exact G.
  - intros m. proj. destruct (Z.eqb_spec m n).
    + subst m. unfold node_inv. proj. cbn [cur_p cur_l last_save]. repeat split; auto; try lia. apply remove_nth_Forall; auto.
    + exact (N m).
  - intros m. proj. destruct (Z.eqb_spec m n).
    + subst m. constructor; proj; auto.
      * intros _ o' [<-|Ho'] Hon; cbn; auto.
      * intros _ _. cbn [cur_p cur_l]. split; [eauto|]. split; auto.
        intros o' [<-|Ho'] Hon Hi; unfold o_end; [cbn; lia|]. specialize (Eo o' Ho' Hon Hi). unfold o_end in Eo. lia.
    + destruct (Ld m) as [K1 K2 K3 K4 K5 K6 K7 K8 K9 K10]. constructor; proj; auto.
      * intros L1 o' [<-|Ho'] Hon; [cbn in Hon; congruence|auto].
      * intros L1 SV'. destruct (K9 L1 SV') as (X1 & X2 & X3). repeat split; auto.
        intros o' [<-|Ho'] Hon Hi; [cbn in Hon; congruence|auto].
  - destruct O as [OA OB]. split; proj.
    + intros o' [<-|Ho']; [|auto]. cbn. split; [exists j; repeat split; auto; lia|]. auto.
    + intros o1 o2 (a & b & d & Eab). proj. destruct a as [|a0 a].
      * cbn in Eab. injection Eab as E1 E2. subst o2.
        assert (Hin : In o1 (outs c)) by (rewrite E2; apply in_or_app; right; left; auto).
        destruct (OA o1 Hin) as ((j' & Ej' & Hj' & Ew') & _).
        split; [|split]; cbn.
        -- intros Hi. apply Eo; auto.
        -- intros Hn. apply Houts; auto.
        -- intros FR. apply is_rl in FR. destruct (Hrl FR) as [_ X]. rewrite HS in X.
           destruct X as [X _]. destruct (tk x); [lia|lia|].
           destruct X as (X1 & X2 & X3). rewrite Ej' . 
           destruct (Nat.eq_dec j' i0) as [->|]; [|lia]. 
           assert (o_node o1 = n) by congruence. rewrite <- Ej'. apply Houts; auto.
      * cbn in Eab. injection Eab as E1 E2. apply OB. exists a, b, d. auto.
Qed.

Lemma Inv_step c a c' : ordinary a -> Inv c -> step c a = Some c' -> Inv c'.
Proof.
  intros OR I E. destruct a; cbn [ordinary] in OR; try contradiction.
  - eapply step_Elect; eauto.
  - eapply step_Lose; eauto.
  - eapply step_Stop; eauto.
  - eapply step_Apply; eauto.
  - eapply step_LsCommit; eauto.
  - eapply step_LsFail; eauto.
  - eapply step_LsStore; eauto.
  - eapply step_Tick; eauto.
  - eapply step_TickCommit; eauto.
  - eapply step_TickDrop; eauto.
  - eapply step_GenReq; eauto.
  - eapply step_GenTry; eauto.
  - eapply step_GenDrop; eauto.
  - eapply step_Snap; eauto.
  - eapply step_Restart; eauto.
  - eapply step_Install; eauto.
Qed.

Lemma Inv_run ls : forall c c', Forall ordinary ls -> Inv c -> run c ls = Some c' -> Inv c'.
Proof.
  induction ls as [|a ls IH]; cbn; intros c c' F I E.
  - inversion E; subst; auto.
  - inversion F; subst. destruct (step c a) as [c0|] eqn:S0; [|discriminate]. apply (IH c0 c'); auto. apply (Inv_step c a c0); auto.
Qed.

Lemma unique_run ls c o1 o2 : Forall ordinary ls -> run init_cluster ls = Some c ->
  answered_before c o1 o2 -> no_common o1 o2.
Proof.
  intros F R AB. pose proof (Inv_run ls _ _ F Inv_init R) as (G & _ & _ & OA & OB).
  destruct (OB _ _ AB) as (H1 & _ & _). destruct AB as (a & b & d & E).
  assert (I1 : In o1 (outs c)) by (rewrite E; apply in_or_app; right; right; apply in_or_app; right; left; auto).
  assert (I2 : In o2 (outs c)) by (rewrite E; apply in_or_app; right; left; auto).
  destruct (OA _ I1) as ((j1 & J1 & L1 & _) & P1 & C1 & _). destruct (OA _ I2) as ((j2 & J2 & L2 & _) & P2 & C2 & _).
  intros p l [X1 X2] [Y1 Y2]. subst p.
  destruct (Nat.lt_trichotomy (o_idx o1) (o_idx o2)) as [Q|[Q|Q]].
  - pose proof (phy_lt (log c) _ _ G Q ltac:(lia)). lia.
  - specialize (H1 Q). unfold o_end in H1. lia.
  - pose proof (phy_lt (log c) _ _ G Q ltac:(lia)). lia.
Qed.

Lemma monotone_run ls c o1 o2 : Forall ordinary ls -> run init_cluster ls = Some c ->
  answered_before c o1 o2 -> o_node o1 = o_node o2 \/ o_fresh o2 = true -> all_smaller o1 o2.
Proof.
  intros F R AB FR. pose proof (Inv_run ls _ _ F Inv_init R) as (G & _ & _ & OA & OB).
  destruct (OB _ _ AB) as (H1 & H2 & H3). destruct AB as (a & b & d & E).
  assert (I1 : In o1 (outs c)) by (rewrite E; apply in_or_app; right; right; apply in_or_app; right; left; auto).
  assert (I2 : In o2 (outs c)) by (rewrite E; apply in_or_app; right; left; auto).
  destruct (OA _ I1) as ((j1 & J1 & L1 & _) & P1 & C1 & _). destruct (OA _ I2) as ((j2 & J2 & L2 & _) & P2 & C2 & _).
  assert (Q : (o_idx o1 <= o_idx o2)%nat) by (destruct FR; auto).
  intros p l p' l' [X1 X2] [Y1 Y2]. subst. unfold ts_lt.
  destruct (Nat.eq_dec (o_idx o1) (o_idx o2)) as [Q'|Q'].
  - specialize (H1 Q'). unfold o_end in H1. right. split; [congruence|lia].
  - pose proof (phy_lt (log c) (o_idx o1) (o_idx o2) G ltac:(lia) ltac:(lia)). left. congruence.
Qed.
