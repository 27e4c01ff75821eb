(* C79: what connections hold, for every order of requests, heartbeats, logins and queries. *)
From Coq Require Import String List ZArith NArith Bool Lia Arith.
From Verif Require Import Priv.Model Priv.Spec Priv.Access.
Import ListNotations.
Open Scope Z_scope.

Section Run.
Variables (scramble : string -> string) (info_db : Z) (u : string).

(* ---- the record of u only moves forward ---- *)

Definition forward (m m' : user_priv) : Prop := m' = m \/ up_version m < up_version m'.

Lemma step_forward : forall s o m, o <> ODrop u -> s u = Some m -> exists m', meta_step s o u = Some m' /\ forward m m'.
Proof.
  intros s o m Ho Hm. destruct o as [v q|v|v q|v q|v q|a b]; cbn [meta_step].
  - exists m. split; [|left; reflexivity]. destruct (String.eqb v u) eqn:E.
    + apply String.eqb_eq in E. subst v. rewrite Hm. exact Hm.
    + apply String.eqb_neq in E. destruct (s v); auto. rewrite set_user_other by congruence. exact Hm.
  - exists m. split; [|left; reflexivity]. assert (v <> u) by congruence. destruct (s v); auto. rewrite set_user_other by congruence. exact Hm.
  - destruct (String.eqb v u) eqn:E.
    + apply String.eqb_eq in E. subst v. rewrite Hm. eexists. rewrite set_user_same. split; [reflexivity|]. right. cbn [modify_user up_version]. lia.
    + apply String.eqb_neq in E. exists m. split; [|left; reflexivity]. destruct (s v); auto. rewrite set_user_other by congruence. exact Hm.
  - destruct (String.eqb v u) eqn:E.
    + apply String.eqb_eq in E. subst v. rewrite Hm. eexists. rewrite set_user_same. split; [reflexivity|]. right. cbn [add_privilege up_version]. lia.
    + apply String.eqb_neq in E. exists m. split; [|left; reflexivity]. destruct (s v); auto. rewrite set_user_other by congruence. exact Hm.
  - destruct (String.eqb v u) eqn:E.
    + apply String.eqb_eq in E. subst v. rewrite Hm. eexists. rewrite set_user_same. split; [reflexivity|]. right. cbn [drop_privilege up_version]. lia.
    + apply String.eqb_neq in E. exists m. split; [|left; reflexivity]. destruct (s v); auto. rewrite set_user_other by congruence. exact Hm.
  - exists (drop_invalid a b m). rewrite Hm. split; [reflexivity|]. unfold drop_invalid, forward. destruct (_ || _); auto. right. cbn [up_version]. lia.
Qed.

Definition checks_address (o : op) : Prop :=
  match o with OCreate v q | OAdd v q | ORemove v q => v = u /\ up_auth q = Some true | _ => False end.

Lemma step_auth : forall s o m, ~ checks_address o -> (forall m, s u = Some m -> get_bool (up_auth m) = false) ->
  meta_step s o u = Some m -> get_bool (up_auth m) = false.
Proof.
  intros s o m Hc Hs Hm.
  assert (set_false : forall a b : option bool, a <> Some true -> get_bool b = false -> get_bool (set_if a b) = false).
  { intros [[]|] b Ha Hb; cbn [set_if get_bool]; auto; congruence. }
  destruct o as [v q|v|v q|v q|v q|a b]; cbn [meta_step checks_address] in *.
  - destruct (s v) eqn:E; auto. unfold set_user in Hm. destruct (String.eqb u v) eqn:Q; auto. apply String.eqb_eq in Q. subst v.
    inversion Hm. cbn [create_user up_auth]. destruct (up_auth q) as [[]|] eqn:A; try reflexivity. exfalso. auto.
  - destruct (s v) eqn:E; auto. unfold set_user in Hm. destruct (String.eqb u v); [discriminate|auto].
  - destruct (s v) eqn:E; auto. unfold set_user in Hm. destruct (String.eqb u v) eqn:Q; auto. apply String.eqb_eq in Q. subst v.
    inversion Hm. cbn [modify_user up_auth]. auto.
  - destruct (s v) eqn:E; auto. unfold set_user in Hm. destruct (String.eqb u v) eqn:Q; auto. apply String.eqb_eq in Q. subst v.
    inversion Hm. cbn [add_privilege up_auth]. apply set_false; auto.
  - destruct (s v) eqn:E; auto. unfold set_user in Hm. destruct (String.eqb u v) eqn:Q; auto. apply String.eqb_eq in Q. subst v.
    inversion Hm. cbn [drop_privilege up_auth]. apply set_false; auto.
  - destruct (s u) eqn:E; [|discriminate]. cbn [option_map] in Hm. inversion Hm. unfold drop_invalid. destruct (_ || _); cbn [up_auth]; auto.
Qed.

(* ---- invariants ---- *)

Record past_ok (P : list meta) : Prop := {
  po_head : forall M m, In M P -> M u = Some m -> exists m', hd (fun _ => None) P u = Some m' /\ forward m m';
  po_auth : forall M m, In M P -> M u = Some m -> get_bool (up_auth m) = false
}.

Record wf (f : frontend) : Prop := {
  wf_map : forall v o i, fe_map f v = Some (o, i) -> (o < fe_next f)%nat;
  wf_inj : forall v w o i j, fe_map f v = Some (o, i) -> fe_map f w = Some (o, j) -> v = w;
  wf_conn : forall c, In c (fe_conns f) -> (c_oid c < fe_next f)%nat;
  wf_own : forall c w i, In c (fe_conns f) -> fe_map f w = Some (c_oid c, i) -> w = c_user c
}.

Definition known (P : list meta) (i : info) : Prop := exists M m, In M P /\ M u = Some m /\ same_rights i (build_info info_db m).

Record good (P : list meta) (f : frontend) : Prop := {
  g_map : forall o i, fe_map f u = Some (o, i) -> exists M m, In M P /\ M u = Some m /\ i = build_info info_db m;
  g_conn : forall c, In c (fe_conns f) -> c_user c = u -> known P (c_info c) /\
    exists o i, fe_map f u = Some (o, i) /\ ui_version (c_info c) <= ui_version i /\
      (ui_version (c_info c) = ui_version i -> c_oid c = o) /\ (c_oid c = o -> c_info c = i)
}.

Lemma update_wf : forall f v x, wf f -> wf (update_user info_db f v x).
Proof.
  intros f v x [W1 W2 W3 W4]. unfold update_user. destruct (fe_map f v) as [[oid old]|] eqn:E.
  - destruct (negb (get_bool (up_auth x)) && (ui_version old >=? up_version x)); [constructor; auto|].
    assert (C : forall c, In c (map (patch_conn oid x) (fe_conns f)) -> exists c0, In c0 (fe_conns f) /\ c_oid c = c_oid c0 /\ c_user c = c_user c0).
    { intros c Hc. apply in_map_iff in Hc. destruct Hc as [c0 [Ec Hc0]]. exists c0. split; [auto|]. rewrite <- Ec. unfold patch_conn.
      destruct (Nat.eqb (c_oid c0) oid); auto. }
    constructor; cbn [fe_map fe_next fe_conns].
    + intros w o i Hm. destruct (String.eqb w v); [inversion Hm; lia|]. apply W1 in Hm. lia.
    + intros a b o i j Ha Hb. destruct (String.eqb a v) eqn:Qa, (String.eqb b v) eqn:Qb.
      * apply String.eqb_eq in Qa, Qb. congruence.
      * inversion Ha. subst o. apply W1 in Hb. lia.
      * inversion Hb. subst o. apply W1 in Ha. lia.
      * eapply W2; eauto.
    + intros c Hc. destruct (C _ Hc) as [c0 [Hc0 [Eo _]]]. rewrite Eo. apply W3 in Hc0. lia.
    + intros c w i Hc Hm. destruct (C _ Hc) as [c0 [Hc0 [Eo Eu]]]. rewrite Eo in Hm. rewrite Eu.
      destruct (String.eqb w v); [inversion Hm as [[Ho Hi]]; apply W3 in Hc0; lia|]. eapply W4; eauto.
  - constructor; cbn [fe_map fe_next fe_conns].
    + intros w o i Hm. destruct (String.eqb w v); [inversion Hm; lia|]. apply W1 in Hm. lia.
    + intros a b o i j Ha Hb. destruct (String.eqb a v) eqn:Qa, (String.eqb b v) eqn:Qb.
      * apply String.eqb_eq in Qa, Qb. congruence.
      * inversion Ha. subst o. apply W1 in Hb. lia.
      * inversion Hb. subst o. apply W1 in Ha. lia.
      * eapply W2; eauto.
    + intros c Hc. apply W3 in Hc. lia.
    + intros c w i Hc Hm. destruct (String.eqb w v); [inversion Hm as [[Ho Hi]]; apply W3 in Hc; lia|]. eapply W4; eauto.
Qed.

Lemma same_rights_refl : forall i, same_rights i i.
Proof. intros. unfold same_rights. repeat split. Qed.
Lemma patch_rights : forall x i j, same_rights i j -> same_rights (patch_info x i) j.
Proof. intros x i j Hs. exact Hs. Qed.
Lemma known_patch : forall P x i, known P i -> known P (patch_info x i).
Proof. intros P x i [M [m [? [? ?]]]]. exists M, m. auto using patch_rights. Qed.

Lemma update_other : forall P f v x, wf f -> good P f -> v <> u -> good P (update_user info_db f v x) /\ fe_map (update_user info_db f v x) u = fe_map f u.
Proof.
  intros P f v x W [G1 G2] Hv.
  assert (Hq : String.eqb u v = false) by (apply String.eqb_neq; congruence).
  unfold update_user. destruct (fe_map f v) as [[oid old]|] eqn:E.
  - destruct (negb (get_bool (up_auth x)) && (ui_version old >=? up_version x)); [split; [constructor; auto|reflexivity]|].
    split; [|cbn [fe_map]; rewrite Hq; reflexivity].
    constructor; cbn [fe_map fe_conns]; rewrite ?Hq; [exact G1|].
    intros c Hc Hu. apply in_map_iff in Hc. destruct Hc as [c0 [Ec Hc0]]. unfold patch_conn in Ec.
    destruct (Nat.eqb (c_oid c0) oid) eqn:O.
    + apply Nat.eqb_eq in O. exfalso. apply Hv. rewrite <- Hu, <- Ec. cbn [c_user].
      eapply (wf_own f W c0 v old); auto. rewrite O. exact E.
    + subst c0. auto.
  - split; [|cbn [fe_map]; rewrite Hq; reflexivity].
    constructor; cbn [fe_map fe_conns]; rewrite ?Hq; auto.
Qed.

Lemma update_self : forall P f M m, wf f -> past_ok P -> good P f -> In M P -> M u = Some m ->
  good P (update_user info_db f u m) /\
  exists o i, fe_map (update_user info_db f u m) u = Some (o, i) /\ up_version m <= ui_version i /\
    (forall o' i', fe_map f u = Some (o', i') -> i = i' \/ ui_version i' < ui_version i).
Proof.
  intros P f M m W Po Gd HM Hm. pose proof Gd as Gd0. destruct Gd as [G1 G2]. unfold update_user. pose proof (po_auth _ Po M m HM Hm) as Ha. rewrite Ha. cbn [negb andb].
  destruct (fe_map f u) as [[oid old]|] eqn:E.
  - destruct (ui_version old >=? up_version m) eqn:V.
    + split; [exact Gd0|]. exists oid, old. split; [exact E|]. apply Z.geb_le in V. split; [lia|].
      intros o' i' Hi. left. congruence.
    + rewrite Z.geb_leb in V. apply Z.leb_gt in V.
      split; [|exists (fe_next f), (build_info info_db m); cbn [fe_map]; rewrite String.eqb_refl; split; [reflexivity|];
               cbn [build_info ui_version]; split; [lia|]; intros o' i' Hi; right; inversion Hi; subst; lia].
      constructor; cbn [fe_map fe_conns]; rewrite String.eqb_refl.
      * intros o i Hi. inversion Hi; subst. eauto.
      * intros c Hc Hu. apply in_map_iff in Hc. destruct Hc as [c0 [Ec Hc0]].
        assert (Hu0 : c_user c0 = u) by (rewrite <- Hu, <- Ec; unfold patch_conn; destruct (Nat.eqb (c_oid c0) oid); reflexivity).
        assert (Hv0 : ui_version (c_info c) = ui_version (c_info c0)) by (rewrite <- Ec; unfold patch_conn; destruct (Nat.eqb (c_oid c0) oid); reflexivity).
        assert (Ho0 : c_oid c = c_oid c0) by (rewrite <- Ec; unfold patch_conn; destruct (Nat.eqb (c_oid c0) oid); reflexivity).
        destruct (G2 _ Hc0 Hu0) as [K [o [i [Hoi [Hle _]]]]].
        assert (old = i) by congruence. subst i.
        split.
        { rewrite <- Ec. unfold patch_conn. destruct (Nat.eqb (c_oid c0) oid); [apply known_patch|]; exact K. }
        exists (fe_next f), (build_info info_db m). split; [reflexivity|]. cbn [build_info ui_version]. rewrite Hv0.
        split; [lia|]. split; [intros Hbad; exfalso; lia|].
        intros Hbad. apply (wf_conn f W) in Hc0. lia.
  - split; [|exists (fe_next f), (build_info info_db m); cbn [fe_map]; rewrite String.eqb_refl; split; [reflexivity|];
             cbn [build_info ui_version]; split; [lia|]; intros o' i' Hi; discriminate].
    constructor; cbn [fe_map fe_conns]; rewrite String.eqb_refl.
    + intros o i Hi. inversion Hi; subst. eauto.
    + intros c Hc Hu. destruct (G2 _ Hc Hu) as [_ [o [i [Hoi _]]]]. congruence.
Qed.

Lemma heartbeat_good : forall P snap names f, past_ok P -> In snap P -> wf f -> good P f ->
  wf (heartbeat info_db names snap f) /\ good P (heartbeat info_db names snap f) /\
  (forall o i, fe_map f u = Some (o, i) -> exists o' i', fe_map (heartbeat info_db names snap f) u = Some (o', i') /\ ui_version i <= ui_version i') /\
  (forall m, In u names -> snap u = Some m -> exists o i, fe_map (heartbeat info_db names snap f) u = Some (o, i) /\ up_version m <= ui_version i).
Proof.
  intros P snap. unfold heartbeat. induction names as [|n names IH]; intros f Po Hs W G; cbn [fold_left].
  - repeat (split; [solve [auto]|]). split; [intros o i Hi; exists o, i; split; [exact Hi|lia]|]. intros m [].
  - assert (Step : wf (match snap n with Some x => update_user info_db f n x | None => f end) /\
                   good P (match snap n with Some x => update_user info_db f n x | None => f end) /\
                   (forall o i, fe_map f u = Some (o, i) ->
                      exists o' i', fe_map (match snap n with Some x => update_user info_db f n x | None => f end) u = Some (o', i') /\ ui_version i <= ui_version i') /\
                   (forall m, n = u -> snap u = Some m ->
                      exists o i, fe_map (match snap n with Some x => update_user info_db f n x | None => f end) u = Some (o, i) /\ up_version m <= ui_version i)).
    { destruct (snap n) as [x|] eqn:E.
      - split; [apply update_wf; auto|]. destruct (string_dec n u) as [->|Hn].
        + destruct (update_self P f snap x W Po G Hs E) as [G' [o [i [Hoi [Hle Hold]]]]]. split; [exact G'|]. split.
          * intros o0 i0 H0. exists o, i. split; [exact Hoi|]. destruct (Hold _ _ H0) as [->|]; lia.
          * intros m _ Hm. exists o, i. split; [exact Hoi|]. congruence.
        + destruct (update_other P f n x W G Hn) as [G' Em]. split; [exact G'|]. rewrite Em. split.
          * intros o i Hi. exists o, i. split; [exact Hi|lia].
          * intros m Hbad. congruence.
      - split; [exact W|]. split; [exact G|]. split.
        + intros o i Hi. exists o, i. split; [exact Hi|lia].
        + intros m -> Hm. congruence. }
    destruct Step as [W' [G' [Mono Up]]]. destruct (IH _ Po Hs W' G') as [W2 [G2 [Mono2 Up2]]].
    split; [exact W2|]. split; [exact G2|]. split.
    + intros o i Hi. destruct (Mono _ _ Hi) as [o1 [i1 [H1 L1]]]. destruct (Mono2 _ _ H1) as [o2 [i2 [H2 L2]]]. exists o2, i2. split; [exact H2|lia].
    + intros m [Hn|Hn] Hm; [|auto]. destruct (Up m Hn Hm) as [o1 [i1 [H1 L1]]]. destruct (Mono2 _ _ H1) as [o2 [i2 [H2 L2]]].
      exists o2, i2. split; [exact H2|lia].
Qed.

(* ---- every run ---- *)

Record ok (y : sys) : Prop := {
  k_past : past_ok (y_past y); k_ne : y_past y <> []; k_wf : wf (y_fe y); k_good : good (y_past y) (y_fe y)
}.

Definition allowed_op (o : op) : Prop := o <> ODrop u /\ ~ checks_address o.
Definition allowed_event (e : event) : Prop := match e with EOp o => allowed_op o | _ => True end.

Lemma good_more : forall P M f, good P f -> good (M :: P) f.
Proof.
  intros P M f [G1 G2]. constructor.
  - intros o i Hi. destruct (G1 _ _ Hi) as [M0 [m [? ?]]]. exists M0, m. split; [right; auto|tauto].
  - intros c Hc Hu. destruct (G2 _ Hc Hu) as [[M0 [m [? ?]]] R]. split; [|exact R]. exists M0, m. split; [right; auto|tauto].
Qed.

Lemma in_map_nth : forall {A} (g : A -> A) l k x, In x (map_nth k g l) -> exists y, In y l /\ (x = y \/ x = g y).
Proof.
  induction l as [|a l IH]; intros k x Hx; cbn [map_nth] in Hx.
  - destruct k; destruct Hx.
  - destruct k; destruct Hx as [<-|Hx].
    + exists a. cbn [In]. auto.
    + exists x. cbn [In]. auto.
    + exists a. cbn [In]. auto.
    + destruct (IH _ _ Hx) as [y [? ?]]. exists y. cbn [In]. auto.
Qed.

Lemma refresh_ok : forall P f c, wf f -> good P f -> (In c (fe_conns f) \/ False) ->
  c_user (refresh f c) = c_user c /\ (c_oid (refresh f c) < fe_next f)%nat /\
  (forall w i, fe_map f w = Some (c_oid (refresh f c), i) -> w = c_user c).
Proof.
  intros P f c W G [Hc|[]]. unfold refresh. destruct (fe_map f (c_user c)) as [[o i]|] eqn:E.
  - destruct (ui_version i >? ui_version (c_info c)); cbn [c_user c_oid].
    + split; [reflexivity|]. split; [eapply wf_map; eauto|]. intros w j Hw. eapply wf_inj; eauto.
    + split; [reflexivity|]. split; [apply wf_conn; auto|]. intros. eapply wf_own; eauto.
  - split; [reflexivity|]. split; [apply wf_conn; auto|]. intros. eapply wf_own; eauto.
Qed.

Lemma refresh_settles : forall P f c o i, good P f -> In c (fe_conns f) -> c_user c = u -> fe_map f u = Some (o, i) ->
  c_oid (refresh f c) = o /\ c_info (refresh f c) = i.
Proof.
  intros P f c o i [G1 G2] Hc Hu Hoi. destruct (G2 _ Hc Hu) as [_ [o' [i' [Hoi' [Hle [Hv Ho]]]]]].
  assert (o' = o /\ i' = i) by (split; congruence). destruct H; subst o' i'.
  unfold refresh. rewrite Hu, Hoi. destruct (ui_version i >? ui_version (c_info c)) eqn:E; cbn [c_oid c_info]; [auto|].
  rewrite Z.gtb_ltb in E. apply Z.ltb_ge in E. assert (Hq : ui_version (c_info c) = ui_version i) by lia. auto.
Qed.

Lemma step_ok : forall y e, allowed_event e -> ok y -> ok (sys_step scramble info_db y e).
Proof.
  intros y e He [Po Ne W G]. destruct e as [o|age names|n p ip|k]; cbn [sys_step].
  - cbn [allowed_event] in He. destruct He as [Hd Hc]. constructor; cbn [y_past y_fe].
    + constructor.
      * intros M m [<-|HM] Hm; cbn [hd].
        { exists m. split; [exact Hm|left; reflexivity]. }
        destruct (po_head _ Po _ _ HM Hm) as [m' [Hm' Fw]]. fold (y_meta y) in Hm'.
        destruct (step_forward _ o _ Hd Hm') as [m2 [Hm2 Fw2]]. exists m2. split; [exact Hm2|].
        unfold forward in *. destruct Fw as [->|Fw], Fw2 as [->|Fw2]; auto; right; lia.
      * intros M m [<-|HM] Hm.
        { eapply step_auth; eauto. intros m0 Hm0. apply (po_auth _ Po (y_meta y)); auto.
          unfold y_meta. destruct (y_past y); [congruence|left; reflexivity]. }
        eapply po_auth; eauto.
    + discriminate.
    + exact W.
    + apply good_more. exact G.
  - destruct (nth_error (y_past y) age) as [snap|] eqn:E; [|constructor; auto].
    apply nth_error_In in E. destruct (heartbeat_good _ snap names _ Po E W G) as [W' [G' _]]. constructor; cbn [y_past y_fe]; auto.
  - unfold login. destruct (fe_map (y_fe y) n) as [[o i]|] eqn:E; [|constructor; auto].
    destruct (String.eqb (scramble p) (scramble (ui_password i)) && allow_addr i ip); [|constructor; auto].
    constructor; cbn [y_past y_fe]; auto.
    + destruct W as [W1 W2 W3 W4]. constructor; cbn [fe_map fe_next fe_conns]; auto.
      * intros c Hc. apply in_app_or in Hc. destruct Hc as [Hc|[<-|[]]]; auto. cbn [c_oid]. eauto.
      * intros c w j Hc Hw. apply in_app_or in Hc. destruct Hc as [Hc|[<-|[]]]; eauto.
    + destruct G as [G1 G2]. constructor; cbn [fe_map fe_conns]; auto.
      intros c Hc Hu. apply in_app_or in Hc. destruct Hc as [Hc|[<-|[]]]; auto.
      cbn [c_user c_info c_oid] in *. subst n. split.
      * destruct (G1 _ _ E) as [M [m [HM [Hm ->]]]]. exists M, m. auto using same_rights_refl.
      * exists o, i. repeat split; auto. lia.
  - constructor; cbn [y_past y_fe]; auto.
    + pose proof W as W0. destruct W as [W1 W2 W3 W4]. constructor; cbn [fe_map fe_next fe_conns]; auto.
      * intros c Hc. apply in_map_nth in Hc. destruct Hc as [c0 [Hc0 [->| ->]]]; auto.
        apply (refresh_ok (y_past y)); auto.
      * intros c w j Hc Hw. apply in_map_nth in Hc. destruct Hc as [c0 [Hc0 [->| ->]]]; [eauto|].
        destruct (refresh_ok (y_past y) (y_fe y) c0 W0 G (or_introl Hc0)) as [-> [_ R]]. eauto.
    + pose proof G as G0. destruct G as [G1 G2]. constructor; cbn [fe_map fe_conns]; auto.
      intros c Hc Hu. apply in_map_nth in Hc. destruct Hc as [c0 [Hc0 [->| ->]]]; auto.
      destruct (refresh_ok (y_past y) (y_fe y) c0 W G0 (or_introl Hc0)) as [Eu _]. rewrite Eu in Hu.
      destruct (G2 _ Hc0 Hu) as [_ [o [i [Hoi _]]]].
      destruct (refresh_settles _ _ _ _ _ G0 Hc0 Hu Hoi) as [Ro Ri]. rewrite Ro, Ri. split.
      * destruct (G1 _ _ Hoi) as [M [m [HM [Hm ->]]]]. exists M, m. auto using same_rights_refl.
      * exists o, i. repeat split; auto. lia.
Qed.

Lemma init_ok : ok sys_init.
Proof.
  constructor; cbn [sys_init y_past y_fe].
  - constructor; intros M m [<-|[]] Hm; discriminate.
  - discriminate.
  - constructor; cbn [fe_map fe_conns]; intros; try discriminate; try contradiction.
  - constructor; cbn [fe_map fe_conns]; intros; try discriminate; try contradiction.
Qed.

Lemma run_ok : forall es y, Forall allowed_event es -> ok y -> ok (fold_left (sys_step scramble info_db) es y).
Proof. induction es as [|e es IH]; intros y F K; [exact K|]. inversion F; subst. cbn [fold_left]. apply IH; auto. apply step_ok; auto. Qed.

Lemma run_meta : forall es y, y_meta (fold_left (sys_step scramble info_db) es y) = fold_left meta_step (ops_of es) (y_meta y).
Proof.
  induction es as [|e es IH]; intros y; [reflexivity|]. cbn [fold_left]. rewrite IH. unfold ops_of. cbn [flat_map].
  destruct e as [o|age names|n p ip|k]; cbn [app fold_left sys_step]; try reflexivity.
  - destruct (nth_error (y_past y) age); reflexivity.
  - destruct (login scramble (y_fe y) n p ip); reflexivity.
Qed.

(* The frontend holds the current record of u. *)
Definition current (y : sys) (m : user_priv) : Prop :=
  y_meta y u = Some m /\ exists o, fe_map (y_fe y) u = Some (o, build_info info_db m).

Lemma at_head : forall y o i m, ok y -> y_meta y u = Some m -> fe_map (y_fe y) u = Some (o, i) -> up_version m <= ui_version i ->
  i = build_info info_db m.
Proof.
  intros y o i m [Po Ne W G] Hm Hi Hle. destruct (g_map _ _ G _ _ Hi) as [M [m0 [HM [Hm0 ->]]]].
  destruct (po_head _ Po _ _ HM Hm0) as [m' [Hm' Fw]]. fold (y_meta y) in Hm'. assert (m' = m) by congruence. subst m'.
  cbn [build_info ui_version] in Hle. destruct Fw as [->|Fw]; [reflexivity|lia].
Qed.

Lemma heartbeat_current : forall y names m, ok y -> y_meta y u = Some m -> In u names ->
  current (sys_step scramble info_db y (EHeartbeat 0 names)) m.
Proof.
  intros y names m K Hm Hin. pose proof (step_ok y (EHeartbeat 0 names) I K) as K'. cbn [sys_step] in *.
  destruct K as [Po Ne W G]. destruct (y_past y) as [|M P] eqn:E; [congruence|]. cbn [nth_error] in *.
  assert (HM : M u = Some m) by (unfold y_meta in Hm; rewrite E in Hm; exact Hm).
  destruct (heartbeat_good (M :: P) M names (y_fe y) Po (or_introl eq_refl) W G) as [_ [_ [_ Up]]].
  destruct (Up m Hin HM) as [o [i [Hoi Hle]]]. split; [exact HM|]. exists o. cbn [y_fe]. rewrite Hoi. f_equal. f_equal.
  eapply at_head; [exact K'|exact HM|exact Hoi|exact Hle].
Qed.

Lemma concerns_not : forall s o, ~ concerns u o -> meta_step s o u = s u.
Proof.
  intros s o Hc. destruct o as [v q|v|v q|v q|v q|a b]; cbn [concerns meta_step] in *;
    try (destruct (s v); auto; apply set_user_other; congruence). exfalso. auto.
Qed.

Lemma current_step : forall y e m, ok y -> allowed_event e -> match e with EOp o => ~ concerns u o | _ => True end ->
  current y m -> current (sys_step scramble info_db y e) m.
Proof.
  intros y e m K Ha He Hc. pose proof (step_ok y e Ha K) as K'. destruct Hc as [Hm [o Ho]].
  destruct e as [op|age names|n p ip|k]; cbn [sys_step] in *.
  - split; [|exists o; exact Ho]. unfold y_meta at 1. cbn [y_past hd]. rewrite concerns_not by auto. exact Hm.
  - destruct (nth_error (y_past y) age) as [snap|] eqn:E; [|split; [exact Hm|exists o; exact Ho]].
    apply nth_error_In in E. destruct K as [Po Ne W G].
    destruct (heartbeat_good _ snap names _ Po E W G) as [_ [_ [Mono _]]]. destruct (Mono _ _ Ho) as [o' [i' [Hoi Hle]]].
    split; [exact Hm|]. exists o'. cbn [y_fe]. rewrite Hoi. f_equal. f_equal.
    eapply at_head; [exact K'|exact Hm|exact Hoi|exact Hle].
  - destruct (login scramble (y_fe y) n p ip); (split; [exact Hm|exists o; exact Ho]).
  - split; [exact Hm|exists o; exact Ho].
Qed.

Lemma current_run : forall es y m, ok y -> Forall allowed_event es -> Forall (fun o => ~ concerns u o) (ops_of es) ->
  current y m -> current (fold_left (sys_step scramble info_db) es y) m.
Proof.
  induction es as [|e es IH]; intros y m K F Fc Hc; [exact Hc|]. inversion F; subst. cbn [fold_left].
  unfold ops_of in Fc. cbn [flat_map] in Fc. apply Forall_app in Fc. destruct Fc as [Fc1 Fc2].
  apply IH; auto; [apply step_ok; auto|]. apply current_step; auto.
  destruct e; auto. inversion Fc1; auto.
Qed.

Lemma allowed_events : forall es, stays u (ops_of es) -> no_address_check u (ops_of es) -> Forall allowed_event es.
Proof.
  intros es St Na. apply Forall_forall. intros e He. destruct e as [o| | |]; cbn [allowed_event]; auto.
  assert (Ho : In o (ops_of es)) by (apply in_flat_map; exists (EOp o); cbn [In]; auto).
  split.
  - intros ->. apply St. exact Ho.
  - unfold no_address_check in Na. rewrite Forall_forall in Na. specialize (Na _ Ho). destruct o; cbn [checks_address]; auto; tauto.
Qed.

Lemma ops_app : forall a b, ops_of (a ++ b) = ops_of a ++ ops_of b.
Proof. intros. unfold ops_of. apply flat_map_app. Qed.

Lemma nth_map_nth : forall {A} (g : A -> A) l k x, nth_error (map_nth k g l) k = Some x -> exists y, nth_error l k = Some y /\ x = g y.
Proof.
  induction l as [|a l IH]; intros k x Hx; destruct k; cbn [map_nth nth_error] in *; try discriminate.
  - inversion Hx. eauto.
  - apply IH. exact Hx.
Qed.

(* The state once a heartbeat has delivered the latest records. *)
Lemma delivered : forall es1 names es2 m,
  stays u (ops_of (es1 ++ es2)) -> no_address_check u (ops_of (es1 ++ es2)) -> In u names ->
  Forall (fun o => ~ concerns u o) (ops_of es2) -> meta_run (ops_of (es1 ++ es2)) u = Some m ->
  let y := sys_run scramble info_db (es1 ++ EHeartbeat 0 names :: es2) in
  ok y /\ current y m.
Proof.
  intros es1 names es2 m St Na Hin Hc Hm y.
  pose proof (allowed_events _ St Na) as Al. apply Forall_app in Al. destruct Al as [Al1 Al2].
  unfold y, sys_run. rewrite fold_left_app. cbn [fold_left].
  pose proof (run_ok es1 sys_init Al1 init_ok) as K1.
  assert (Hm1 : y_meta (fold_left (sys_step scramble info_db) es1 sys_init) u = Some m).
  { rewrite run_meta. unfold meta_run in Hm. rewrite ops_app, fold_left_app in Hm.
    change (y_meta sys_init) with (fun _ : string => @None user_priv).
    revert Hm Hc. generalize (fold_left meta_step (ops_of es1) (fun _ => None)). generalize (ops_of es2). clear.
    induction l as [|o l IH]; intros s Hm Hc; [exact Hm|]. inversion Hc; subst. cbn [fold_left] in Hm.
    rewrite <- (concerns_not s o) by auto. apply IH; auto. }
  pose proof (heartbeat_current _ names m K1 Hm1 Hin) as C. pose proof (step_ok _ (EHeartbeat 0 names) I K1) as K2.
  split; [apply run_ok; auto|]. apply current_run; auto.
Qed.

Lemma connections_follow : forall es1 names es2 k m c,
  stays u (ops_of (es1 ++ es2)) -> no_address_check u (ops_of (es1 ++ es2)) -> In u names ->
  Forall (fun o => ~ concerns u o) (ops_of es2) -> meta_run (ops_of (es1 ++ es2)) u = Some m ->
  nth_error (fe_conns (y_fe (sys_run scramble info_db (es1 ++ EHeartbeat 0 names :: es2 ++ [ERefresh k])))) k = Some c ->
  c_user c = u -> c_info c = build_info info_db m.
Proof.
  intros es1 names es2 k m c St Na Hin Hc Hm Hk Hu.
  destruct (delivered es1 names es2 m St Na Hin Hc Hm) as [K [_ [o Ho]]].
  unfold sys_run in *. change (es1 ++ EHeartbeat 0 names :: es2 ++ [ERefresh k]) with (es1 ++ (EHeartbeat 0 names :: es2) ++ [ERefresh k]) in Hk.
  rewrite app_assoc, fold_left_app in Hk. cbn [fold_left] in Hk.
  set (y := fold_left (sys_step scramble info_db) (es1 ++ EHeartbeat 0 names :: es2) sys_init) in *.
  cbn [sys_step y_fe fe_conns] in Hk. apply nth_map_nth in Hk. destruct Hk as [c0 [Hk ->]]. apply nth_error_In in Hk.
  assert (Hu0 : c_user c0 = u).
  { rewrite <- Hu. destruct (refresh_ok _ _ c0 (k_wf _ K) (k_good _ K) (or_introl Hk)) as [-> _]. reflexivity. }
  destruct (refresh_settles _ _ _ _ _ (k_good _ K) Hk Hu0 Ho) as [_ R]. exact R.
Qed.

Lemma logins_follow : forall es1 names es2 m pass ip,
  stays u (ops_of (es1 ++ es2)) -> no_address_check u (ops_of (es1 ++ es2)) -> In u names ->
  Forall (fun o => ~ concerns u o) (ops_of es2) -> meta_run (ops_of (es1 ++ es2)) u = Some m ->
  match login scramble (y_fe (sys_run scramble info_db (es1 ++ EHeartbeat 0 names :: es2))) u pass ip with
  | Some c => scramble pass = scramble (up_password m) /\ c_info c = build_info info_db m
  | None => scramble pass <> scramble (up_password m)
  end.
Proof.
  intros es1 names es2 m pass ip St Na Hin Hc Hm.
  destruct (delivered es1 names es2 m St Na Hin Hc Hm) as [K [Hm2 [o Ho]]].
  unfold login. rewrite Ho. cbn [build_info ui_password].
  assert (Hau : allow_addr (build_info info_db m) ip = true).
  { unfold allow_addr. cbn [build_info ui_auth]. rewrite (po_auth _ (k_past _ K) (y_meta (sys_run scramble info_db (es1 ++ EHeartbeat 0 names :: es2))) m); auto.
    unfold y_meta. pose proof (k_ne _ K). destruct (y_past _); [congruence|left; reflexivity]. }
  rewrite Hau, andb_true_r. destruct (String.eqb (scramble pass) (scramble (up_password m))) eqn:E.
  - apply String.eqb_eq in E. cbn [c_info]. auto.
  - apply String.eqb_neq in E. exact E.
Qed.

(* y_past lists the states after every prefix of the requests. *)
Lemma run_past : forall es M, In M (y_past (sys_run scramble info_db es)) -> exists h1 h2, ops_of es = h1 ++ h2 /\ M = meta_run h1.
Proof.
  intros es. unfold sys_run. rewrite <- (rev_involutive es). induction (rev es) as [|e l IH]; intros M HM.
  - cbn in HM. destruct HM as [<-|[]]. exists [], []. auto.
  - cbn [rev] in *. rewrite fold_left_app in HM. cbn [fold_left] in HM. rewrite ops_app.
    assert (Old : In M (y_past (fold_left (sys_step scramble info_db) (rev l) sys_init)) ->
                  exists h1 h2, ops_of (rev l) ++ ops_of [e] = h1 ++ h2 /\ M = meta_run h1).
    { intros HM'. destruct (IH M HM') as [h1 [h2 [E ->]]]. exists h1, (h2 ++ ops_of [e]). rewrite E, app_assoc. auto. }
    destruct e as [o|age names|n p ip|k]; cbn [sys_step] in HM.
    + cbn [y_past] in HM. destruct HM as [<-|HM]; [|auto]. exists (ops_of (rev l) ++ [o]), []. rewrite app_nil_r. split; [reflexivity|].
      unfold meta_run. rewrite fold_left_app. cbn [fold_left]. rewrite run_meta. reflexivity.
    + destruct (nth_error _ age); auto.
    + destruct (login _ _ n p ip); auto.
    + auto.
Qed.

Lemma never_more : forall es c, stays u (ops_of es) -> no_address_check u (ops_of es) ->
  In c (fe_conns (y_fe (sys_run scramble info_db es))) -> c_user c = u ->
  exists h1 h2 m, ops_of es = h1 ++ h2 /\ meta_run h1 u = Some m /\ same_rights (c_info c) (build_info info_db m).
Proof.
  intros es c St Na Hc Hu. pose proof (run_ok es sys_init (allowed_events _ St Na) init_ok) as K. fold (sys_run scramble info_db es) in K.
  destruct (g_conn _ _ (k_good _ K) c Hc Hu) as [[M [m [HM [Hm Hs]]]] _].
  destruct (run_past es M HM) as [h1 [h2 [E ->]]]. exists h1, h2, m. auto.
Qed.
End Run.
