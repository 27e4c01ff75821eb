(* C78, second half: the rights of GRANT and REVOKE, on tables that were named in a GRANT. *)
From Coq Require Import String List ZArith NArith Bool Lia.
From Verif Require Import Priv.Model Priv.Spec Priv.Access.
Import ListNotations.
Open Scope Z_scope.

Lemma covers_bit : forall b a, covers (2 ^ b) a = N.testbit a b.
Proof.
  intros b a. unfold covers.
  assert (E : N.land (2 ^ b) a = if N.testbit a b then (2 ^ b)%N else 0%N).
  { apply N.bits_inj. intros k. rewrite N.land_spec, N.pow2_bits_eqb. destruct (N.eqb_spec b k) as [<-|Hk].
    - cbn [andb]. destruct (N.testbit a b); [rewrite N.pow2_bits_true; reflexivity|rewrite N.bits_0; reflexivity].
    - cbn [andb]. destruct (N.testbit a b); [rewrite N.pow2_bits_false by auto; reflexivity|rewrite N.bits_0; reflexivity]. }
  rewrite E. destruct (N.testbit a b); [apply N.eqb_refl|].
  apply N.eqb_neq. apply N.pow_nonzero. discriminate.
Qed.

Lemma require_right : forall s b, right_of s = Some b -> require_acl s = (2 ^ b)%N.
Proof. intros s b E. destruct s; cbn [right_of] in E; inversion E; reflexivity. Qed.

Definition right_in (b : N) (a : option N) : bool := N.testbit (get_acl a) b.

Lemma names_right_in : forall b a, names_right b a = right_in b a.
Proof. intros b [a|]; cbn [names_right]; unfold right_in; cbn [get_acl]; [reflexivity|]. rewrite N.bits_0. reflexivity. Qed.

Lemma add_acl_right : forall b q m, right_in b (add_acl q m) = right_in b m || names_right b q.
Proof.
  intros b [q|] m; unfold right_in; cbn [add_acl get_acl names_right]; [|rewrite orb_false_r; reflexivity].
  apply N.lor_spec.
Qed.
Lemma drop_acl_right : forall b q m, right_in b (drop_acl q m) = right_in b m && negb (names_right b q).
Proof.
  intros b [q|] m; unfold right_in; cbn [drop_acl get_acl names_right]; [|rewrite andb_true_r; reflexivity].
  unfold clear_bits. apply N.ldiff_spec.
Qed.

Definition rights_db (b : N) (d : Z) (x : bool) (l : list db_priv) : Prop :=
  (db_at d l = [] /\ x = false) \/ exists e a, db_at d l = [e] /\ dp_acl e = Some a /\ N.testbit a b = x.
Definition rights_tbl (b : N) (t : Z) (x nm : bool) (l : list tbl_priv) : Prop :=
  (tbl_at t l = [] /\ x = false /\ nm = false) \/
  exists e a, tbl_at t l = [e] /\ tp_acl e = Some a /\ N.testbit a b = x /\ nm = true.

Lemma hold_db_cons : forall b d e es x, hold_db b d (e :: es) x = hold_db b d es (hold_db b d [e] x).
Proof. intros. unfold hold_db. cbn [existsb]. rewrite orb_false_r, <- orb_assoc. reflexivity. Qed.
Lemma lose_db_cons : forall b d e es x, lose_db b d (e :: es) x = lose_db b d es (lose_db b d [e] x).
Proof. intros. unfold lose_db. cbn [existsb]. rewrite orb_false_r, negb_orb, andb_assoc. reflexivity. Qed.
Lemma hold_tbl_cons : forall b d e es x, hold_tbl b d (e :: es) x = hold_tbl b d es (hold_tbl b d [e] x).
Proof. intros. unfold hold_tbl. cbn [existsb]. rewrite orb_false_r, <- orb_assoc. reflexivity. Qed.
Lemma lose_tbl_cons : forall b d e es x, lose_tbl b d (e :: es) x = lose_tbl b d es (lose_tbl b d [e] x).
Proof. intros. unfold lose_tbl. cbn [existsb]. rewrite orb_false_r, negb_orb, andb_assoc. reflexivity. Qed.
Lemma tbl_named_cons : forall t e es x, tbl_named t (e :: es) x = tbl_named t es (tbl_named t [e] x).
Proof. intros. unfold tbl_named. cbn [existsb]. rewrite orb_false_r, <- orb_assoc. reflexivity. Qed.

Lemma hold_db_rights : forall b d es l x,
  Forall (fun e => dp_db e = d -> dp_rw e = None /\ dp_acl e <> None) es -> rights_db b d x l ->
  rights_db b d (hold_db b d es x) (fold_left (fun l p => insert_db p l) es l).
Proof.
  induction es as [|e es IH]; intros l x F Hr; [unfold hold_db; cbn [existsb fold_left]; rewrite orb_false_r; exact Hr|].
  inversion F as [|e' es' He Hes]; subst. rewrite hold_db_cons. cbn [fold_left]. apply IH; [exact Hes|].
  unfold hold_db. cbn [existsb]. rewrite orb_false_r.
  destruct (dp_db e =? d) eqn:E.
  - apply Z.eqb_eq in E. destruct (He E) as [Hrw Hacl]. destruct (dp_acl e) as [q|] eqn:Q; [|congruence]. cbn [andb names_right].
    pose proof (insert_db_same e l) as I. rewrite E in I. right. destruct Hr as [[Hn Hx]|[m [a [Hm [Ha Hx]]]]].
    + rewrite Hn in I. exists e, q. rewrite Hx. auto.
    + rewrite Hm in I. rewrite Q, Ha in I. cbn [add_acl get_acl] in I. eexists. exists (N.lor a q). split; [exact I|].
      split; [reflexivity|]. rewrite N.lor_spec, Hx. reflexivity.
  - apply Z.eqb_neq in E. cbn [andb]. rewrite orb_false_r. unfold rights_db. rewrite insert_db_other by auto. exact Hr.
Qed.

Lemma lose_db_rights : forall b d es l x,
  Forall (fun e => dp_db e = d -> dp_rw e = None /\ dp_acl e <> None) es -> rights_db b d x l ->
  rights_db b d (lose_db b d es x) (fold_left (fun l p => delete_db p l) es l).
Proof.
  induction es as [|e es IH]; intros l x F Hr; [unfold lose_db; cbn [existsb fold_left negb]; rewrite andb_true_r; exact Hr|].
  inversion F as [|e' es' He Hes]; subst. rewrite lose_db_cons. cbn [fold_left]. apply IH; [exact Hes|].
  unfold lose_db. cbn [existsb]. rewrite orb_false_r.
  destruct (dp_db e =? d) eqn:E.
  - apply Z.eqb_eq in E. destruct (He E) as [Hrw Hacl]. destruct (dp_acl e) as [q|] eqn:Q; [|congruence]. cbn [andb names_right].
    pose proof (delete_db_same e l) as I. rewrite E in I. destruct Hr as [[Hn Hx]|[m [a [Hm [Ha Hx]]]]].
    + left. rewrite Hn in I. rewrite Hx. auto.
    + right. rewrite Hm in I. cbn [flat_map] in I. rewrite app_nil_r in I.
      assert (Hk : dp_db m = d).
      { assert (In m (db_at d l)) by (rewrite Hm; left; reflexivity). apply filter_In in H. apply Z.eqb_eq. tauto. }
      unfold delete_db_one in I. rewrite Hk, E, Z.eqb_refl, Q, Hrw, Ha in I. cbn [lowers app get_acl] in I.
      eexists. exists (clear_bits a q). split; [exact I|]. split; [reflexivity|].
      unfold clear_bits. rewrite N.ldiff_spec, Hx. reflexivity.
  - apply Z.eqb_neq in E. cbn [andb negb]. rewrite andb_true_r. unfold rights_db. rewrite delete_db_other by auto. exact Hr.
Qed.

Lemma hold_tbl_rights : forall b d t es l x nm,
  Forall (fun e => tp_tbl e = t -> tp_rw e = None /\ tp_acl e <> None) es ->
  Forall (by_ids (in_db d t)) es -> Forall (by_ids (in_db d t)) l -> rights_tbl b t x nm l ->
  rights_tbl b t (hold_tbl b t es x) (tbl_named t es nm) (fold_left (fun l p => insert_tbl p l) es l).
Proof.
  induction es as [|e es IH]; intros l x nm F Fe Fl Hr.
  { unfold hold_tbl, tbl_named. cbn [existsb fold_left]. rewrite !orb_false_r. exact Hr. }
  inversion F as [|e' es' He Hes]; subst. inversion Fe as [|e' es' Ie Ies]; subst.
  rewrite hold_tbl_cons, tbl_named_cons. cbn [fold_left]. apply IH; auto.
  { apply (insert_tbl_ids (in_db d t) [e]); auto. }
  unfold hold_tbl, tbl_named. cbn [existsb]. rewrite !orb_false_r.
  destruct (tp_tbl e =? t) eqn:E.
  - apply Z.eqb_eq in E. destruct (He E) as [Hrw Hacl]. destruct (tp_acl e) as [q|] eqn:Q; [|congruence]. cbn [andb names_right].
    assert (Hc : forall m, In m l -> tp_tbl m = tp_tbl e -> tp_db m = tp_db e).
    { intros m Hm Et. rewrite Forall_forall in Fl. specialize (Fl _ Hm). unfold by_ids, in_db in *.
      rewrite (Ie E). apply Fl. congruence. }
    pose proof (insert_tbl_same e l Hc) as I. rewrite E in I. rewrite orb_true_r.
    right. destruct Hr as [[Hn [Hx _]]|[m [a [Hm [Ha [Hx _]]]]]].
    + rewrite Hn in I. exists e, q. rewrite Hx. auto.
    + rewrite Hm in I. rewrite Q, Ha in I. cbn [add_acl get_acl] in I. eexists. exists (N.lor a q). split; [exact I|].
      split; [reflexivity|]. rewrite N.lor_spec, Hx. auto.
  - apply Z.eqb_neq in E. cbn [andb]. rewrite !orb_false_r. unfold rights_tbl. rewrite insert_tbl_other by auto. exact Hr.
Qed.

Lemma lose_tbl_rights : forall b d t es l x nm,
  Forall (fun e => tp_tbl e = t -> tp_rw e = None /\ tp_acl e <> None) es ->
  Forall (by_ids (in_db d t)) es -> Forall (by_ids (in_db d t)) l -> rights_tbl b t x nm l ->
  rights_tbl b t (lose_tbl b t es x) nm (fold_left (fun l p => delete_tbl p l) es l).
Proof.
  induction es as [|e es IH]; intros l x nm F Fe Fl Hr.
  { unfold lose_tbl. cbn [existsb fold_left negb]. rewrite andb_true_r. exact Hr. }
  inversion F as [|e' es' He Hes]; subst. inversion Fe as [|e' es' Ie Ies]; subst.
  rewrite lose_tbl_cons. cbn [fold_left]. apply IH; auto.
  { apply (delete_tbl_ids (in_db d t) [e]); auto. }
  unfold lose_tbl. cbn [existsb]. rewrite !orb_false_r.
  destruct (tp_tbl e =? t) eqn:E.
  - apply Z.eqb_eq in E. destruct (He E) as [Hrw Hacl]. destruct (tp_acl e) as [q|] eqn:Q; [|congruence]. cbn [andb names_right].
    pose proof (delete_tbl_same e l) as I. rewrite E in I. destruct Hr as [[Hn [Hx Hm]]|[m [a [Hm [Ha [Hx Hmm]]]]]].
    + left. rewrite Hn in I. rewrite Hx. auto.
    + right. rewrite Hm in I. cbn [flat_map] in I. rewrite app_nil_r in I.
      assert (Hk : In m l /\ tp_tbl m = t).
      { assert (In m (tbl_at t l)) by (rewrite Hm; left; reflexivity). apply filter_In in H. rewrite Z.eqb_eq in H. tauto. }
      destruct Hk as [Hin Hk]. rewrite Forall_forall in Fl. specialize (Fl _ Hin). unfold by_ids, in_db in *.
      unfold delete_tbl_one in I. rewrite (Ie E), (Fl Hk), Hk, E, !Z.eqb_refl, Q, Hrw, Ha in I. cbn [lowers andb app get_acl] in I.
      eexists. exists (clear_bits a q). split; [exact I|]. split; [reflexivity|].
      unfold clear_bits. rewrite N.ldiff_spec, Hx. auto.
  - apply Z.eqb_neq in E. cbn [andb negb]. rewrite andb_true_r. unfold rights_tbl. rewrite delete_tbl_other by auto. exact Hr.
Qed.

Lemma db_at_filter : forall d l (ok : Z -> bool), db_at d (filter (fun e => ok (dp_db e)) l) = if ok d then db_at d l else [].
Proof.
  intros d l ok. unfold db_at. induction l as [|x l IH]; cbn [filter]; [destruct (ok d); reflexivity|].
  destruct (ok (dp_db x)) eqn:K; cbn [filter]; destruct (dp_db x =? d) eqn:D; rewrite IH; try reflexivity;
    apply Z.eqb_eq in D; rewrite D in K; rewrite K; reflexivity.
Qed.
Lemma tbl_at_filter : forall t l (ok : Z -> bool), tbl_at t (filter (fun e => ok (tp_tbl e)) l) = if ok t then tbl_at t l else [].
Proof.
  intros t l ok. unfold tbl_at. induction l as [|x l IH]; cbn [filter]; [destruct (ok t); reflexivity|].
  destruct (ok (tp_tbl x)) eqn:K; cbn [filter]; destruct (tp_tbl x =? t) eqn:D; rewrite IH; try reflexivity;
    apply Z.eqb_eq in D; rewrite D in K; rewrite K; reflexivity.
Qed.

Definition holding (u : string) (b : N) (d t : Z) (g xd xt nm : bool) (s : meta) : Prop :=
  exists m, s u = Some m /\ right_in b (up_acl m) = g /\ rights_db b d xd (up_dbs m) /\ rights_tbl b t xt nm (up_tbls m) /\
    Forall (by_ids (in_db d t)) (up_tbls m).

Lemma holding_step : forall u b d t o g xd xt nm s,
  o <> ODrop u ->
  (forall q, o = OAdd u q \/ o = ORemove u q -> by_rights d t q /\ Forall (by_ids (in_db d t)) (up_tbls q)) ->
  holding u b d t g xd xt nm s ->
  holding u b d t (global_after u b g o) (right_db_after u b d xd o) (right_tbl_after u b t xt o) (named_after u t nm o) (meta_step s o).
Proof.
  intros u b d t o g xd xt nm s Hd Hr Hs. destruct Hs as [m [Hm [Hg [Hdb [Htb Hn]]]]].
  assert (Hne : s u <> None) by congruence.
  destruct o as [v q|v|v q|v q|v q|oa ob]; cbn [global_after right_db_after right_tbl_after named_after].
  - exists m. split; [|auto]. cbn [meta_step]. destruct (String.eqb v u) eqn:E.
    + apply String.eqb_eq in E. subst v. rewrite Hm. exact Hm.
    + apply String.eqb_neq in E. destruct (s v); auto. rewrite set_user_other by congruence. exact Hm.
  - exists m. split; [|auto]. rewrite step_other; auto. congruence.
  - destruct (String.eqb v u) eqn:E.
    + apply String.eqb_eq in E. subst v. cbn [meta_step]. rewrite Hm. exists (modify_user q m). rewrite set_user_same. auto.
    + apply String.eqb_neq in E. exists m. split; [|auto]. rewrite step_other; auto.
  - destruct (String.eqb v u) eqn:E.
    + apply String.eqb_eq in E. subst v. cbn [meta_step]. rewrite Hm. exists (add_privilege q m). rewrite set_user_same.
      destruct (Hr q (or_introl eq_refl)) as [[A1 A2] A3].
      unfold add_privilege. cbn [up_dbs up_tbls up_acl].
      split; [reflexivity|]. split; [rewrite add_acl_right, Hg; unfold hold_global; apply orb_comm|].
      split; [apply hold_db_rights; auto|]. split; [apply (hold_tbl_rights b d); auto|]. apply insert_tbl_ids; auto.
    + apply String.eqb_neq in E. exists m. split; [|auto]. rewrite step_other; auto.
  - destruct (String.eqb v u) eqn:E.
    + apply String.eqb_eq in E. subst v. cbn [meta_step]. rewrite Hm. exists (drop_privilege q m). rewrite set_user_same.
      destruct (Hr q (or_intror eq_refl)) as [[A1 A2] A3].
      unfold drop_privilege. cbn [up_dbs up_tbls up_acl].
      split; [reflexivity|]. split; [rewrite drop_acl_right, Hg; reflexivity|].
      split; [apply lose_db_rights; auto|]. split; [apply (lose_tbl_rights b d); auto|]. apply delete_tbl_ids; auto.
    + apply String.eqb_neq in E. exists m. split; [|auto]. rewrite step_other; auto.
  - cbn [meta_step]. exists (drop_invalid oa ob m). split; [rewrite Hm; reflexivity|].
    destruct (drop_invalid_rest oa ob m) as [_ ->]. rewrite drop_invalid_dbs, drop_invalid_tbls.
    split; [exact Hg|]. split.
    { unfold rights_db in *. rewrite db_at_filter. destruct (oa d); [rewrite andb_true_r; exact Hdb|]. rewrite andb_false_r. auto. }
    split.
    { unfold rights_tbl in *. rewrite tbl_at_filter. destruct (ob t); [rewrite !andb_true_r; exact Htb|]. rewrite !andb_false_r. auto. }
    apply Forall_forall. intros e He. apply filter_In in He. rewrite Forall_forall in Hn. apply Hn. tauto.
Qed.

Lemma holding_run : forall u b d t h g xd xt nm s,
  stays u h -> Forall (by_rights d t) (requests_of u h) ->
  Forall (fun q => Forall (by_ids (in_db d t)) (up_tbls q)) (requests_of u h) ->
  holding u b d t g xd xt nm s ->
  holding u b d t (fold_left (global_after u b) h g) (fold_left (right_db_after u b d) h xd) (fold_left (right_tbl_after u b t) h xt)
    (fold_left (named_after u t) h nm) (fold_left meta_step h s).
Proof.
  induction h as [|o h IH]; intros g xd xt nm s St Rq Nm Hs; [exact Hs|].
  cbn [fold_left]. unfold requests_of in *. cbn [flat_map] in *.
  apply Forall_app in Rq, Nm. destruct Rq as [Rq1 Rq2], Nm as [Nm1 Nm2].
  apply IH; auto.
  { intros Hi. apply St. right. exact Hi. }
  apply holding_step; auto.
  - intros ->. apply St. left. reflexivity.
  - intros q [->| ->]; rewrite String.eqb_refl in Rq1, Nm1; inversion Rq1; inversion Nm1; auto.
Qed.

Lemma hold_db_skip : forall b d es x, db_at d es = [] -> hold_db b d es x = x.
Proof.
  intros b d es x Hd. unfold hold_db. replace (existsb _ es) with false; [apply orb_false_r|].
  symmetry. induction es as [|e es IH]; [reflexivity|]. unfold db_at in Hd. cbn [filter existsb] in *.
  destruct (dp_db e =? d); [discriminate|]. apply IH. exact Hd.
Qed.
Lemma hold_tbl_skip : forall b d es x, tbl_at d es = [] -> hold_tbl b d es x = x.
Proof.
  intros b d es x Hd. unfold hold_tbl. replace (existsb _ es) with false; [apply orb_false_r|].
  symmetry. induction es as [|e es IH]; [reflexivity|]. unfold tbl_at in Hd. cbn [filter existsb] in *.
  destruct (tp_tbl e =? d); [discriminate|]. apply IH. exact Hd.
Qed.
Lemma tbl_named_skip : forall t es x, tbl_at t es = [] -> tbl_named t es x = x.
Proof.
  intros t es x Hd. unfold tbl_named. replace (existsb _ es) with false; [apply orb_false_r|].
  symmetry. induction es as [|e es IH]; [reflexivity|]. unfold tbl_at in Hd. cbn [filter existsb] in *.
  destruct (tp_tbl e =? t); [discriminate|]. apply IH. exact Hd.
Qed.

Lemma hold_db_create : forall b d es,
  Forall (fun e => dp_db e = d -> dp_rw e = None /\ dp_acl e <> None) es -> (length (db_at d es) <= 1)%nat ->
  rights_db b d (hold_db b d es false) es.
Proof.
  intros b d es F L. destruct (at_most_one _ L) as [E|[e E]].
  - left. rewrite hold_db_skip by auto. auto.
  - right. clear L. assert (G : exists a, dp_acl e = Some a /\ N.testbit a b = hold_db b d es false).
    { revert E. induction F as [|x es Hx F IH]; intros E; [discriminate|].
      unfold db_at in E. cbn [filter] in E. rewrite hold_db_cons. unfold hold_db at 2. cbn [existsb]. rewrite orb_false_r. cbn [orb].
      destruct (dp_db x =? d) eqn:D.
      - inversion E as [[E1 E2]]. subst x. apply Z.eqb_eq in D. destruct (Hx D) as [_ Hc].
        destruct (dp_acl e) as [a|] eqn:A; [|congruence]. exists a. cbn [andb names_right]. rewrite hold_db_skip by exact E2. auto.
      - cbn [andb]. apply IH. exact E. }
    destruct G as [a [A X]]. exists e, a. auto.
Qed.
Lemma hold_tbl_create : forall b t es,
  Forall (fun e => tp_tbl e = t -> tp_rw e = None /\ tp_acl e <> None) es -> (length (tbl_at t es) <= 1)%nat ->
  rights_tbl b t (hold_tbl b t es false) (tbl_named t es false) es.
Proof.
  intros b t es F L. destruct (at_most_one _ L) as [E|[e E]].
  - left. rewrite hold_tbl_skip, tbl_named_skip by auto. auto.
  - right. clear L. assert (G : exists a, tp_acl e = Some a /\ N.testbit a b = hold_tbl b t es false).
    { revert E. induction F as [|x es Hx F IH]; intros E; [discriminate|].
      unfold tbl_at in E. cbn [filter] in E. rewrite hold_tbl_cons. unfold hold_tbl at 2. cbn [existsb]. rewrite orb_false_r. cbn [orb].
      destruct (tp_tbl x =? t) eqn:D.
      - inversion E as [[E1 E2]]. subst x. apply Z.eqb_eq in D. destruct (Hx D) as [_ Hc].
        destruct (tp_acl e) as [a|] eqn:A; [|congruence]. exists a. cbn [andb names_right]. rewrite hold_tbl_skip by exact E2. auto.
      - cbn [andb]. apply IH. exact E. }
    destruct G as [a [A X]]. exists e, a. repeat (split; [solve [auto]|]).
    unfold tbl_named. cbn [orb]. apply existsb_exists. exists e.
    assert (In e (tbl_at t es)) by (rewrite E; left; reflexivity). apply filter_In in H. exact H.
Qed.

Lemma holding_history : forall u q0 h b d t s, rights_history u q0 h d t -> s u = None ->
  holding u b d t (holds_global u q0 h b) (holds_db u q0 h b d) (holds_tbl u q0 h b t) (named u q0 h t)
    (fold_left meta_step (OCreate u q0 :: h) s).
Proof.
  intros u q0 h b d t s [St [[O1 O2] [[B1 B2] [Rq Nm]]]] Hs. inversion Nm as [|x y N0 Nr]; subst.
  cbn [fold_left]. apply holding_run; auto.
  exists (create_user q0). cbn [meta_step]. rewrite Hs, set_user_same. unfold create_user. cbn [up_dbs up_tbls up_acl].
  split; [reflexivity|]. split; [unfold hold_global; rewrite orb_false_r, names_right_in; reflexivity|].
  split; [apply hold_db_create; auto|]. split; [apply hold_tbl_create; auto|]. exact N0.
Qed.

Lemma acl_db_find : forall b d x l, rights_db b d x l ->
  match find_z d (acl_db_map l) with Some a => N.testbit a b | None => false end = x.
Proof.
  intros b d x l Hr. unfold acl_db_map. rewrite (find_z_acl dp_db dp_acl).
  assert (E : filter (fun e => (dp_db e =? d) && is_some (dp_acl e)) l = filter (fun e => is_some (dp_acl e)) (db_at d l))
    by (unfold db_at; rewrite filter_filter; reflexivity).
  rewrite E. destruct Hr as [[Hn Hx]|[e [a [He [Ha Hx]]]]].
  - rewrite Hn. cbn [filter rev]. auto.
  - rewrite He. cbn [filter]. rewrite Ha. cbn [is_some rev app]. rewrite Ha. exact Hx.
Qed.
Lemma acl_tbl_find : forall b t x nm l, rights_tbl b t x nm l -> nm = true ->
  exists a, find_z t (acl_tbl_map l) = Some a /\ N.testbit a b = x.
Proof.
  intros b t x nm l Hr Hnm. unfold acl_tbl_map. rewrite (find_z_acl tp_tbl tp_acl).
  assert (E : filter (fun e => (tp_tbl e =? t) && is_some (tp_acl e)) l = filter (fun e => is_some (tp_acl e)) (tbl_at t l))
    by (unfold tbl_at; rewrite filter_filter; reflexivity).
  rewrite E. destruct Hr as [[_ [_ Hn]]|[e [a [He [Ha [Hx _]]]]]]; [congruence|].
  rewrite He. cbn [filter]. rewrite Ha. cbn [is_some rev app]. rewrite Ha. exists a. auto.
Qed.

Lemma rights_decide : forall info_db u q0 h d t n s b st,
  rights_history u q0 h d t -> st u = None -> named u q0 h t = true -> right_of s = Some b -> d <> -1 -> t <> -1 ->
  exists m, fold_left meta_step (OCreate u q0 :: h) st u = Some m /\
    (allow_op (build_info info_db m) s d t n = true <->
     holds_global u q0 h b = true \/ holds_db u q0 h b d = true \/ holds_tbl u q0 h b t = true).
Proof.
  intros info_db u q0 h d t n s b st Hh Hst Hnm Hs Hd Ht.
  destruct (holding_history u q0 h b d t st Hh Hst) as [m [Hm [Hg [Hdb [Htb Hn]]]]].
  exists m. split; [exact Hm|].
  destruct (acl_tbl_find _ _ _ _ _ Htb Hnm) as [a [Ha Hx]].
  unfold allow_op. rewrite count_z_bool. cbn [build_info ui_acl_tbl]. unfold count_z. rewrite Ha. cbn [orb Z.gtb Z.compare].
  assert (Hv : acl_valid (build_info info_db m) = true).
  { unfold acl_valid. cbn [build_info ui_acl_tbl]. destruct (acl_tbl_map (up_tbls m)); [discriminate Ha|]. cbn [negb]. apply orb_true_r. }
  rewrite Hv. cbn [andb]. unfold contain_privs. cbn [build_info ui_acl ui_acl_db ui_acl_tbl].
  rewrite Ha. apply Z.eqb_neq in Hd, Ht. rewrite Hd, Ht. cbn [negb andb]. rewrite (require_right _ _ Hs), !covers_bit, Hx.
  pose proof (acl_db_find _ _ _ _ Hdb) as Hd2.
  assert (Hd3 : match find_z d (acl_db_map (up_dbs m)) with Some a0 => covers (2 ^ b) a0 | None => false end = holds_db u q0 h b d)
    by (rewrite <- Hd2; destruct (find_z d (acl_db_map (up_dbs m))); [apply covers_bit|reflexivity]).
  rewrite Hd3. unfold right_in in Hg. rewrite Hg. rewrite !orb_true_iff. tauto.
Qed.

(* Granting: only what one holds. *)
Lemma covers_has : forall need have b, covers need have = true -> N.testbit need b = true -> N.testbit have b = true.
Proof.
  intros need have b Hc Hb. unfold covers in Hc. apply N.eqb_eq in Hc. rewrite Hc, N.land_spec in Hb. apply andb_true_iff in Hb. tauto.
Qed.

Lemma grants_held : forall info_db verify u q0 h d t acl b m st,
  rights_history u q0 h d t -> st u = None -> named u q0 h t = true ->
  fold_left meta_step (OCreate u q0 :: h) st u = Some m ->
  grant_allowed verify (build_info info_db m) acl d t = true ->
  N.testbit acl b = true \/ b = 10%N ->
  holds_global u q0 h b = true \/ holds_db u q0 h b d = true \/ holds_tbl u q0 h b t = true.
Proof.
  intros info_db verify u q0 h d t acl b m st Hh Hst Hnm Hm Hg Hb.
  destruct (holding_history u q0 h b d t st Hh Hst) as [m' [Hm' [Hgl [Hdb [Htb Hn]]]]].
  assert (m' = m) by congruence. subst m'.
  destruct (acl_tbl_find _ _ _ _ _ Htb Hnm) as [a [Ha Hx]].
  assert (Hv : acl_valid (build_info info_db m) = true).
  { unfold acl_valid. cbn [build_info ui_acl_tbl]. destruct (acl_tbl_map (up_tbls m)); [discriminate Ha|]. cbn [negb]. apply orb_true_r. }
  unfold grant_allowed in Hg. rewrite Hv in Hg. apply andb_true_iff in Hg. destruct Hg as [_ Hg]. apply andb_true_iff in Hg. destruct Hg as [Hc _].
  assert (Hneed : N.testbit (N.lor acl GRANT_ACL) b = true).
  { rewrite N.lor_spec. destruct Hb as [->| ->]; [reflexivity|]. apply orb_true_r. }
  unfold contain_privs in Hc. apply orb_true_iff in Hc. rewrite orb_true_iff in Hc. cbn [build_info ui_acl ui_acl_db ui_acl_tbl] in Hc.
  destruct Hc as [[Hc|Hc]|Hc].
  - left. rewrite <- Hgl. unfold right_in. eapply covers_has; eauto.
  - right; left. apply andb_true_iff in Hc. destruct Hc as [_ Hc]. rewrite <- (acl_db_find _ _ _ _ Hdb).
    destruct (find_z d (acl_db_map (up_dbs m))); [|discriminate]. eapply covers_has; eauto.
  - right; right. apply andb_true_iff in Hc. destruct Hc as [_ Hc]. rewrite Ha in Hc. rewrite <- Hx. eapply covers_has; eauto.
Qed.

(* DROP TABLE, ALTER TABLE and the others, for somebody the table was named to. *)
Lemma ddl_decides : forall info_db verify u q0 h d t n s b st,
  rights_history u q0 h d t -> st u = None -> named u q0 h t = true -> right_of s = Some b -> s <> SCreate -> d <> -1 -> t <> -1 ->
  exists m, fold_left meta_step (OCreate u q0 :: h) st u = Some m /\
    (ddl_allowed verify (build_info info_db m) s d t n = true <->
     (verify = true -> get_bool (up_super m) = true \/ get_bool (up_ddl m) = true) /\
     (holds_global u q0 h b = true \/ holds_db u q0 h b d = true \/ holds_tbl u q0 h b t = true)).
Proof.
  intros info_db verify u q0 h d t n s b st Hh Hst Hnm Hs Hc Hd Ht.
  destruct (rights_decide info_db u q0 h d t n s b st Hh Hst Hnm Hs Hd Ht) as [m [Hm Ha]].
  exists m. split; [exact Hm|].
  destruct (holding_history u q0 h b d t st Hh Hst) as [m' [Hm' [Hgl [Hdb [Htb Hn]]]]].
  assert (m' = m) by congruence. subst m'.
  destruct (acl_tbl_find _ _ _ _ _ Htb Hnm) as [a [Hf Hx]].
  assert (Hv : acl_valid (build_info info_db m) = true).
  { unfold acl_valid. cbn [build_info ui_acl_tbl]. destruct (acl_tbl_map (up_tbls m)); [discriminate Hf|]. cbn [negb]. apply orb_true_r. }
  unfold ddl_allowed. rewrite Hv. replace (match s with SCreate => -1 | _ => t end) with t by (destruct s; congruence).
  rewrite andb_true_iff, Ha. unfold allow_ddl. cbn [build_info ui_super ui_ddl].
  destruct verify; cbn [negb]; destruct (get_bool (up_super m)), (get_bool (up_ddl m)); intuition congruence.
Qed.
