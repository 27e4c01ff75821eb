(* C81: the index of users by table, and DROP TABLE. *)
From Coq Require Import String List ZArith NArith Bool Lia Arith.
From Verif Require Import Priv.Model Priv.Spec Priv.Access.
Import ListNotations.
Open Scope Z_scope.

Section Index.
Variables (d t : Z) (n : string).

Definition is_t (e : tbl_priv) : bool := tp_tbl e =? t.
Definition ex (l : list tbl_priv) : bool := existsb is_t l.
Definition cnt (l : list tbl_priv) : nat := length (filter is_t l).
Definition okl (l : list tbl_priv) : Prop := Forall (names_table d t n) l /\ (cnt l <= 1)%nat.

Lemma cnt_ex : forall l, ex l = negb (Nat.eqb (cnt l) 0).
Proof. unfold ex, cnt. induction l as [|e l IH]; cbn [existsb filter]; auto. destruct (is_t e); cbn [orb length]; auto. Qed.
Lemma cnt0 : forall l, cnt l = 0%nat -> ex l = false.
Proof. intros l E. rewrite cnt_ex, E. reflexivity. Qed.
Lemma ex_app : forall a b, ex (a ++ b) = ex a || ex b.
Proof. intros. apply existsb_app. Qed.
Lemma cnt_cons : forall e l, cnt (e :: l) = ((if is_t e then 1 else 0) + cnt l)%nat.
Proof. intros. unfold cnt. cbn [filter]. destruct (is_t e); reflexivity. Qed.
Lemma cnt_app : forall a b, cnt (a ++ b) = (cnt a + cnt b)%nat.
Proof. intros. unfold cnt. rewrite filter_app, app_length. reflexivity. Qed.

Lemma is_t_eq : forall e, is_t e = true <-> tp_tbl e = t.
Proof. intros. unfold is_t. apply Z.eqb_eq. Qed.

Lemma named_db : forall e, names_table d t n e -> is_t e = true -> tp_db e = d.
Proof. intros e [Hd _] He. apply is_t_eq in He. auto. Qed.

Lemma names_upd : forall e r f a, names_table d t n e -> names_table d t n (mkTbl (tp_db e) (tp_tbl e) (tp_name e) r f a).
Proof. intros e r f a Hn. exact Hn. Qed.

(* has_tbl and the index agree on t. *)
Lemma has_t : forall p l, Forall (names_table d t n) l -> names_table d t n p -> is_t p = true -> has_tbl p l = ex l.
Proof.
  intros p l Hl Hp Ht. pose proof (named_db _ Hp Ht) as Hd. apply is_t_eq in Ht.
  induction Hl as [|m l Hm Hl IH]; cbn [has_tbl ex existsb]; auto. fold (ex l). rewrite IH. f_equal.
  unfold is_t. rewrite Hd, Ht. destruct (tp_tbl m =? t) eqn:E; [|apply andb_false_r].
  rewrite (named_db m Hm E), Z.eqb_refl. reflexivity.
Qed.

Lemma insert_ok : forall p l, okl l -> names_table d t n p -> okl (insert_tbl p l) /\ ex (insert_tbl p l) = ex l || is_t p.
Proof.
  intros p l [Hl Hc] Hp. revert Hc. induction Hl as [|m l Hm Hl IH]; intros Hc; cbn [insert_tbl].
  - split; [|cbn [ex existsb]; rewrite orb_false_r; reflexivity]. split; [constructor; auto|]. rewrite cnt_cons. destruct (is_t p); cbn; lia.
  - destruct ((tp_db m =? tp_db p) && (tp_tbl m =? tp_tbl p)) eqn:E.
    + apply andb_true_iff in E. destruct E as [_ E]. apply Z.eqb_eq in E. split.
      * split; [constructor; auto|]. rewrite cnt_cons in *. exact Hc.
      * cbn [ex existsb]. fold (ex l). unfold is_t. cbn [tp_tbl]. rewrite <- E. destruct (tp_tbl m =? t), (ex l); reflexivity.
    + rewrite cnt_cons in Hc.
      assert (Hc' : (cnt l <= 1)%nat) by lia. destruct (IH Hc') as [[Hl2 Hc2] He2]. split.
      * split; [constructor; auto|]. rewrite cnt_cons. destruct (is_t m) eqn:Em; [|lia].
        assert (Ep : is_t p = false).
        { destruct (is_t p) eqn:Ep; auto. exfalso. pose proof (named_db _ Hm Em). pose proof (named_db _ Hp Ep).
          apply is_t_eq in Em, Ep. rewrite H, H0, Em, Ep, !Z.eqb_refl in E. discriminate. }
        assert (Z0 : ex l = false) by (apply cnt0; lia). rewrite Z0, Ep in He2. rewrite cnt_ex in He2.
        destruct (cnt (insert_tbl p l)); cbn in He2; [lia|discriminate].
      * cbn [ex existsb]. fold (ex (insert_tbl p l)). fold (ex l). rewrite He2, orb_assoc. reflexivity.
Qed.

Lemma add_all_other : forall v u ts x, v <> u -> add_all u ts x t v = x t v.
Proof.
  intros v u. unfold add_all. induction ts as [|e ts IH]; intros x Hv; cbn [fold_left]; auto. rewrite IH by auto.
  unfold index_add. replace (String.eqb v u) with false by (symmetry; apply String.eqb_neq; auto). rewrite andb_false_r. reflexivity.
Qed.
Lemma del_all_other : forall v u ts x, v <> u -> del_all u ts x t v = x t v.
Proof.
  intros v u. unfold del_all. induction ts as [|e ts IH]; intros x Hv; cbn [fold_left]; auto. rewrite IH by auto.
  unfold index_del. replace (String.eqb v u) with false by (symmetry; apply String.eqb_neq; auto). rewrite andb_false_r. reflexivity.
Qed.
Lemma add_all_self : forall u ts x, add_all u ts x t u = x t u || ex ts.
Proof.
  intros u. unfold add_all. induction ts as [|e ts IH]; intros x; cbn [fold_left]; [rewrite orb_false_r; auto|]. rewrite IH.
  unfold index_add. rewrite String.eqb_refl, andb_true_r. cbn [ex existsb]. fold (ex ts). unfold is_t. rewrite (Z.eqb_sym (tp_tbl e)).
  destruct (t =? tp_tbl e), (x t u), (ex ts); reflexivity.
Qed.
Lemma del_all_self : forall u ts x, del_all u ts x t u = x t u && negb (ex ts).
Proof.
  intros u. unfold del_all. induction ts as [|e ts IH]; intros x; cbn [fold_left]; [rewrite andb_true_r; auto|]. rewrite IH.
  unfold index_del. rewrite String.eqb_refl, andb_true_r. cbn [ex existsb]. fold (ex ts). unfold is_t. rewrite (Z.eqb_sym (tp_tbl e)).
  destruct (t =? tp_tbl e), (x t u), (ex ts); reflexivity.
Qed.

Lemma inserts_ok : forall q l, okl l -> Forall (names_table d t n) q ->
  okl (fold_left (fun l p => insert_tbl p l) q l) /\
  ex (fold_left (fun l p => insert_tbl p l) q l) = ex l || ex (inserted_tbls q l).
Proof.
  induction q as [|p q IH]; intros l Hl Hq; cbn [fold_left inserted_tbls].
  - split; auto. cbn. rewrite orb_false_r. reflexivity.
  - inversion Hq as [|? ? Hp Hq']; subst. destruct (insert_ok p l Hl Hp) as [Hl2 He2]. destruct (IH _ Hl2 Hq') as [Hl3 He3].
    split; auto. rewrite He3, He2, ex_app. destruct (ex l) eqn:El; [reflexivity|]. cbn [orb]. f_equal.
    destruct (is_t p) eqn:Ep.
    + rewrite (has_t p l) by (auto; apply Hl). rewrite El. cbn [ex existsb]. rewrite Ep. reflexivity.
    + destruct (has_tbl p l); cbn [ex existsb]; rewrite ?Ep; reflexivity.
Qed.

Lemma delete_ok : forall p l, okl l -> names_table d t n p -> (tp_tbl p = t -> tp_acl p = None) ->
  okl (delete_tbl p l) /\ ex (delete_tbl p l) = ex l && negb (ex (deleted_tbls p l)).
Proof.
  intros p l [Hl Hc] Hp Ha.
  assert (One : forall m, names_table d t n m -> Forall (names_table d t n) (delete_tbl_one p m) /\
            (cnt (delete_tbl_one p m) <= cnt [m])%nat /\
            cnt (delete_tbl_one p m) = (if is_t m && (is_t p && negb (lowers (tp_rw p) (tp_rw m))) then 0 else cnt [m])%nat /\
            ex (if (tp_db p =? tp_db m) && (tp_tbl p =? tp_tbl m) && negb (lowers (tp_rw p) (tp_rw m)) then [p] else []) =
            is_t m && (is_t p && negb (lowers (tp_rw p) (tp_rw m)))).
  { intros m Hm. unfold delete_tbl_one. destruct ((tp_db p =? tp_db m) && (tp_tbl p =? tp_tbl m)) eqn:E.
    - apply andb_true_iff in E. destruct E as [Ed Et]. apply Z.eqb_eq in Ed, Et.
      assert (Eq : is_t p = is_t m) by (unfold is_t; rewrite Et; reflexivity). rewrite Eq.
      destruct (is_t m) eqn:Em.
      + rewrite (Ha (proj1 (is_t_eq p) Eq)), app_nil_r. cbn [andb]. unfold cnt. cbn [filter]. rewrite Em.
        destruct (lowers (tp_rw p) (tp_rw m)); cbn [negb filter length ex existsb]; rewrite ?Eq; cbn [length orb]; repeat split; auto.
      + cbn [andb]. unfold cnt. cbn [filter]. rewrite Em. rewrite filter_app, app_length.
        assert (C1 : length (filter is_t (if lowers (tp_rw p) (tp_rw m) then [p] else [])) = 0%nat)
          by (destruct (lowers (tp_rw p) (tp_rw m)); cbn [filter]; rewrite ?Eq; reflexivity).
        assert (C2 : length (filter is_t (match tp_acl p with Some a => [mkTbl (tp_db m) (tp_tbl m) (tp_name m) (tp_rw m) (tp_force m) (Some (clear_bits (get_acl (tp_acl m)) a))] | None => [] end)) = 0%nat).
        { destruct (tp_acl p); cbn [filter]; auto. unfold is_t in *. cbn [tp_tbl]. rewrite Em. reflexivity. }
        rewrite C1, C2. cbn [length plus]. split.
        { apply Forall_app. split; [destruct (lowers _ _); auto|]. destruct (tp_acl p); auto. }
        repeat split; auto. destruct (negb (lowers (tp_rw p) (tp_rw m))); cbn [ex existsb]; rewrite ?Eq; reflexivity.
    - cbn [andb ex existsb].
      assert (No : is_t m && (is_t p && negb (lowers (tp_rw p) (tp_rw m))) = false).
      { destruct (is_t m) eqn:Em, (is_t p) eqn:Ep; cbn [andb]; auto. exfalso.
        pose proof (named_db _ Hm Em). pose proof (named_db _ Hp Ep). apply is_t_eq in Em, Ep.
        rewrite H, H0, Em, Ep, !Z.eqb_refl in E. discriminate. }
      rewrite No. repeat split; auto. }
  unfold delete_tbl, deleted_tbls. revert Hc. induction Hl as [|m l Hm Hl IH]; intros Hc; cbn [flat_map].
  - repeat split; auto.
  - destruct (One m Hm) as [O1 [O2 [O3 O4]]]. rewrite cnt_cons in Hc. assert (Hc' : (cnt l <= 1)%nat) by lia.
    destruct (IH Hc') as [[I1 I2] I3].
    assert (Le : (cnt (flat_map (delete_tbl_one p) l) <= cnt l)%nat).
    { clear - One Hl. induction Hl as [|m l Hm Hl IH]; cbn [flat_map]; auto. rewrite cnt_app, (cnt_cons m l).
      destruct (One m Hm) as [_ [O2 _]]. rewrite (cnt_cons m []) in O2. unfold cnt at 2 in O2. cbn [filter length] in O2. lia. }
    rewrite (cnt_cons m []) in O2, O3. change (cnt []) with 0%nat in *.
    split; [split|].
    + apply Forall_app; auto.
    + rewrite cnt_app. lia.
    + rewrite !ex_app, O4. cbn [ex existsb]. fold (ex l). rewrite I3. rewrite (cnt_ex (delete_tbl_one p m)), O3.
      destruct (is_t m) eqn:Em; cbn [andb].
      * assert (Zl : ex l = false) by (apply cnt0; lia). rewrite Zl. cbn [andb orb].
        destruct (is_t p && negb (lowers (tp_rw p) (tp_rw m))); cbn [Nat.eqb plus negb orb andb]; auto.
        assert (Nd : ex (flat_map (fun m0 => if (tp_db p =? tp_db m0) && (tp_tbl p =? tp_tbl m0) && negb (lowers (tp_rw p) (tp_rw m0)) then [p] else []) l) = false).
        { clear - One Hl Zl. induction Hl as [|m l Hm Hl IH]; cbn [flat_map]; auto. cbn [ex existsb] in Zl. apply orb_false_iff in Zl. destruct Zl as [Z1 Z2].
          rewrite ex_app. destruct (One m Hm) as [_ [_ [_ ->]]]. rewrite Z1. cbn [andb orb]. apply IH. exact Z2. }
        rewrite Nd. reflexivity.
      * cbn [Nat.eqb plus negb orb]. reflexivity.
Qed.

Lemma deletes_ok : forall q l, okl l -> Forall (names_table d t n) q -> Forall (fun e => tp_tbl e = t -> tp_acl e = None) q ->
  okl (fold_left (fun l p => delete_tbl p l) q l) /\
  ex (fold_left (fun l p => delete_tbl p l) q l) = ex l && negb (ex (removed_tbls q l)).
Proof.
  induction q as [|p q IH]; intros l Hl Hq Ha; cbn [fold_left removed_tbls].
  - split; auto. cbn. rewrite andb_true_r. reflexivity.
  - inversion Hq as [|? ? Hp Hq']; subst. inversion Ha as [|? ? Hap Ha']; subst.
    destruct (delete_ok p l Hl Hp Hap) as [Hl2 He2]. destruct (IH _ Hl2 Hq' Ha') as [Hl3 He3].
    split; auto. rewrite He3, He2, ex_app, negb_orb, andb_assoc. reflexivity.
Qed.

Definition inv (s : meta) (x : index) : Prop :=
  forall v, match s v with None => x t v = false | Some m => okl (up_tbls m) /\ x t v = ex (up_tbls m) end.

Lemma okl_filter : forall g l, okl l -> okl (filter g l).
Proof.
  intros g l [Hl Hc]. split.
  - apply Forall_forall. intros e He. apply filter_In in He. rewrite Forall_forall in Hl. apply Hl, He.
  - clear Hl. assert (cnt (filter g l) <= cnt l)%nat; [|lia]. clear Hc. induction l as [|e l IH]; cbn [filter]; auto.
    rewrite (cnt_cons e l). destruct (g e); [rewrite cnt_cons|]; lia.
Qed.

Lemma filter_short : forall {A} (g : A -> bool) l, Nat.ltb (length (filter g l)) (length l) = false -> filter g l = l.
Proof.
  intros A g l. rewrite Nat.ltb_ge. induction l as [|a l IH]; cbn [filter length]; intros Hl; auto.
  assert (length (filter g l) <= length l)%nat by (clear; induction l as [|a l IH]; cbn [filter length]; auto; destruct (g a); cbn [length]; lia).
  destruct (g a); cbn [length] in Hl; [f_equal; apply IH; lia|lia].
Qed.

Lemma invalid_tbls : forall a b m, up_tbls (drop_invalid a b m) = filter (fun e => b (tp_tbl e)) (up_tbls m).
Proof.
  intros a b m. unfold drop_invalid. destruct (_ || _) eqn:E; [reflexivity|]. apply orb_false_iff in E. destruct E as [_ E].
  symmetry. apply filter_short. exact E.
Qed.

Lemma inv_step : forall s x o, tidy d t n o -> inv s x -> inv (meta_step s o) (index_step s x o).
Proof.
  intros s x o Ht Hi v. pose proof (Hi v) as Hv.
  destruct o as [w q|w|w q|w q|w q|a b]; cbn [meta_step index_step tidy] in *.
  - destruct (s w) eqn:E; [exact Hv|]. destruct (string_dec v w) as [->|Hn].
    + rewrite set_user_same. rewrite E in Hv. rewrite add_all_self, Hv. split; [exact Ht|reflexivity].
    + rewrite set_user_other by auto. rewrite add_all_other by auto. exact Hv.
  - destruct (s w) eqn:E; [|exact Hv]. destruct (string_dec v w) as [->|Hn].
    + rewrite set_user_same. rewrite E in Hv. destruct Hv as [_ Hx]. rewrite del_all_self, Hx. apply andb_negb_r.
    + rewrite set_user_other by auto. rewrite del_all_other by auto. exact Hv.
  - destruct (s w) eqn:E; [|exact Hv]. destruct (string_dec v w) as [->|Hn].
    + rewrite set_user_same. rewrite E in Hv. exact Hv.
    + rewrite set_user_other by auto. exact Hv.
  - destruct (s w) eqn:E; [|exact Hv]. destruct (string_dec v w) as [->|Hn].
    + rewrite set_user_same. rewrite E in Hv. destruct Hv as [Hl Hx]. cbn [add_privilege up_tbls].
      destruct (inserts_ok (up_tbls q) (up_tbls u) Hl Ht) as [H1 H2]. split; [exact H1|]. rewrite add_all_self, H2, Hx. reflexivity.
    + rewrite set_user_other by auto. rewrite add_all_other by auto. exact Hv.
  - destruct (s w) eqn:E; [|exact Hv]. destruct (string_dec v w) as [->|Hn].
    + rewrite set_user_same. rewrite E in Hv. destruct Hv as [Hl Hx]. cbn [drop_privilege up_tbls]. destruct Ht as [Ht1 Ht2].
      destruct (deletes_ok (up_tbls q) (up_tbls u) Hl Ht1 Ht2) as [H1 H2]. split; [exact H1|]. rewrite del_all_self, H2, Hx. reflexivity.
    + rewrite set_user_other by auto. rewrite del_all_other by auto. exact Hv.
  - destruct (s v) as [m|] eqn:E; cbn [option_map].
    + destruct Hv as [Hl Hx]. rewrite invalid_tbls. split; [apply okl_filter; exact Hl|]. rewrite Hx. clear.
      induction (up_tbls m) as [|e l IH]; auto. cbn [ex existsb filter]. fold (ex l).
      destruct (b (tp_tbl e)) eqn:Eb; cbn [ex existsb]; fold (ex (filter (fun e => b (tp_tbl e)) l)).
      * rewrite <- IH. change (tp_tbl e =? t) with (is_t e). destruct (is_t e) eqn:Et; cbn [andb orb]; auto.
        apply is_t_eq in Et. rewrite Et in Eb. rewrite Eb. cbn [negb andb orb].
        assert (N0 : existsb (fun e0 => (tp_tbl e0 =? t) && false) l = false).
        { clear. induction l; cbn [existsb]; auto. rewrite andb_false_r. auto. }
        rewrite N0. reflexivity.
      * rewrite <- IH. change (tp_tbl e =? t) with (is_t e). destruct (is_t e) eqn:Et; cbn [andb orb]; auto.
        apply is_t_eq in Et. rewrite Et in Eb. rewrite Eb. cbn [negb andb orb].
        replace (existsb (fun e0 => (tp_tbl e0 =? t) && true) l) with (ex l); [destruct (ex l); reflexivity|].
        clear. unfold ex. induction l; cbn [existsb]; auto. rewrite andb_true_r, IHl. reflexivity.
    + rewrite Hv. reflexivity.
Qed.

Lemma inv_run : forall h, Forall (tidy d t n) h -> inv (fst (indexed_run h)) (snd (indexed_run h)).
Proof.
  intros h Hh. unfold indexed_run.
  assert (G : forall s x, inv s x -> let y := fold_left (fun sx o => (meta_step (fst sx) o, index_step (fst sx) (snd sx) o)) h (s, x) in inv (fst y) (snd y)).
  { induction Hh as [|o h Ho Hh IH]; intros s x Hi; cbn [fold_left]; auto. apply IH. cbn [fst snd]. apply inv_step; auto. }
  apply (G (fun _ => None) (fun _ _ => false)). intros v. reflexivity.
Qed.

Lemma ex_listed : forall l, ex l = true <-> exists e, In e l /\ tp_tbl e = t.
Proof.
  intros l. unfold ex. rewrite existsb_exists. split; intros [e [He Ht]]; exists e; split; auto; apply is_t_eq; auto.
Qed.

Lemma index_exact : forall h u, Forall (tidy d t n) h -> (snd (indexed_run h) t u = true <-> listed (fst (indexed_run h)) u t).
Proof.
  intros h u Hh. pose proof (inv_run h Hh u) as Hv. unfold listed. destruct (fst (indexed_run h) u) as [m|].
  - destruct Hv as [_ ->]. rewrite ex_listed. split.
    + intros [e He]. exists m, e. auto.
    + intros [m' [e [Em He]]]. inversion Em; subst m'. exists e. auto.
  - rewrite Hv. split; [discriminate|]. intros [m' [e [Em _]]]. discriminate.
Qed.

Lemma drop_request_ok : forall l, okl l -> ex (delete_tbl (mkTbl d t n None false None) l) = false.
Proof.
  intros l [Hl _]. unfold delete_tbl. induction Hl as [|m l Hm Hl IH]; cbn [flat_map]; auto. rewrite ex_app, IH, orb_false_r.
  unfold delete_tbl_one. cbn [tp_db tp_tbl tp_rw tp_acl lowers app].
  destruct (is_t m) eqn:Em.
  - rewrite (named_db _ Hm Em). apply is_t_eq in Em. rewrite Em, !Z.eqb_refl. reflexivity.
  - destruct ((d =? tp_db m) && (t =? tp_tbl m)); cbn [ex existsb]; rewrite ?Em; reflexivity.
Qed.

Lemma run_fst : forall h sx, fst (fold_left (fun sx o => (meta_step (fst sx) o, index_step (fst sx) (snd sx) o)) h sx) = fold_left meta_step h (fst sx).
Proof. induction h as [|o h IH]; intros sx; cbn [fold_left]; auto. rewrite IH. reflexivity. Qed.

(* After DROP TABLE no record mentions the table. *)
Lemma dropped : forall h users u m, Forall (tidy d t n) h -> (forall v, fst (indexed_run h) v <> None -> In v users) ->
  fold_left meta_step (drop_table_ops users (snd (indexed_run h)) d t n) (fst (indexed_run h)) u = Some m ->
  Forall (names_table d t n) (up_tbls m) /\ ex (up_tbls m) = false.
Proof.
  intros h users u m Hh Hall. pose proof (inv_run h Hh) as Hi. revert Hall Hi.
  generalize (fst (indexed_run h)) (snd (indexed_run h)). intros s x Hall Hi Hm.
  assert (G : forall us s', (forall v, match s' v with None => x t v = false | Some m => okl (up_tbls m) /\ (ex (up_tbls m) = true -> x t v = true) end) ->
            let s2 := fold_left meta_step (drop_table_ops us x d t n) s' in
            forall v, match s2 v with None => True | Some m => okl (up_tbls m) /\ (ex (up_tbls m) = true -> x t v = true /\ ~ In v us /\ s' v = Some m) end).
  { induction us as [|w us IH]; intros s' Hs s2 v; unfold s2; cbn [drop_table_ops].
    - cbn [fold_left]. specialize (Hs v). destruct (s' v); auto. destruct Hs. split; auto.
    - destruct (x t w) eqn:Ex; cbn [app].
      + cbn [fold_left meta_step]. specialize (IH (match s' w with Some m => set_user s' w (Some (drop_privilege (drop_table_request d t n) m)) | None => s' end)).
        assert (Hs' : forall v, match (match s' w with Some m => set_user s' w (Some (drop_privilege (drop_table_request d t n) m)) | None => s' end) v with
                                None => x t v = false | Some m => okl (up_tbls m) /\ (ex (up_tbls m) = true -> x t v = true) end).
        { intros v'. pose proof (Hs w) as Hw. destruct (s' w) as [mw|] eqn:Ew; [|exact (Hs v')]. destruct (string_dec v' w) as [->|Hn].
          - rewrite set_user_same. destruct Hw as [Hl _]. split; [|auto].
            cbn [drop_privilege drop_table_request up_tbls fold_left]. apply delete_ok; auto. split; cbn [tp_tbl tp_db tp_name]; tauto.
          - rewrite set_user_other by auto. exact (Hs v'). }
        specialize (IH Hs' v). cbn zeta in IH. destruct (fold_left meta_step (drop_table_ops us x d t n) _ v) as [m2|] eqn:Ef; auto. destruct IH as [I1 I2]. split; auto.
        intros He. destruct (I2 He) as [J1 [J2 J3]]. split; auto.
        destruct (string_dec v w) as [->|Hn].
        * exfalso. pose proof (Hs w) as Hw. destruct (s' w) as [mw|] eqn:Ew; [|congruence]. destruct Hw as [Hlw _]. rewrite set_user_same in J3. inversion J3. subst m2.
          cbn [drop_privilege drop_table_request up_tbls fold_left] in He. rewrite drop_request_ok in He by auto. discriminate.
        * split; [intros [Hw|Hw]; [congruence|auto]|]. destruct (s' w); [rewrite set_user_other in J3 by auto|]; exact J3.
      + specialize (IH s' Hs v). cbn zeta in IH. destruct (fold_left meta_step (drop_table_ops us x d t n) _ v) as [m2|] eqn:Ef; auto. destruct IH as [I1 I2]. split; auto.
        intros He. destruct (I2 He) as [J1 [J2 J3]]. split; auto. split; auto. intros [Hw|Hw]; [congruence|auto]. }
  specialize (G users s). cbn zeta in G.
  assert (Hs : forall v, match s v with None => x t v = false | Some m => okl (up_tbls m) /\ (ex (up_tbls m) = true -> x t v = true) end).
  { intros v. specialize (Hi v). destruct (s v); auto. destruct Hi as [? ->]. auto. }
  specialize (G Hs u). rewrite Hm in G. destruct G as [[G1 _] G2]. split; auto.
  destruct (ex (up_tbls m)) eqn:E; auto. exfalso. destruct (G2 eq_refl) as [_ [Hn Hsu]]. apply Hn, Hall. congruence.
Qed.
End Index.

(* A table created later under the same name is not open to anybody because of the old one. *)
Lemma drop_table_forgets : forall info_db d t n h users u m s d' t',
  Forall (tidy d t n) h -> (forall v, fst (indexed_run h) v <> None -> In v users) ->
  fold_left meta_step (drop_table_ops users (snd (indexed_run h)) d t n) (fst (indexed_run h)) u = Some m ->
  (t' = t \/ Forall (fun e => tp_tbl e <> t') (up_tbls m)) ->
  d' <> info_db -> Forall (fun e => dp_db e <> d') (up_dbs m) -> get_bool (up_super m) = false ->
  allow_op (build_info info_db m) s d' t' n = false.
Proof.
  intros info_db d t n h users u m s d' t' Hh Hall Hm Ht Hd Hdb Hs.
  destruct (dropped d t n h users u m Hh Hall Hm) as [Hn He].
  assert (Ht' : Forall (fun e => tp_tbl e <> t') (up_tbls m)).
  { destruct Ht as [->|Ht]; auto. apply Forall_forall. intros e Hin Heq.
    assert (ex t (up_tbls m) = true) by (apply ex_listed; exists e; auto). congruence. }
  assert (Hnm : Forall (fun e => tp_name e <> n) (up_tbls m)).
  { apply Forall_forall. intros e Hin Heq. rewrite Forall_forall in Hn. destruct (Hn _ Hin) as [_ [Hx _]].
    assert (ex t (up_tbls m) = true) by (apply ex_listed; exists e; auto). congruence. }
  assert (Fz : forall {A} (l : list (Z * A)) k, Forall (fun e => fst e <> k) l -> find_z k l = None).
  { intros A l k Hl. induction Hl as [|[k' v] l Hk Hl IH]; cbn [find_z]; auto. cbn [fst] in Hk.
    replace (k =? k') with false by (symmetry; apply Z.eqb_neq; auto). exact IH. }
  assert (Fs : forall {A} (l : list (string * A)) k, Forall (fun e => fst e <> k) l -> find_s k l = None).
  { intros A l k Hl. induction Hl as [|[k' v] l Hk Hl IH]; cbn [find_s]; auto. cbn [fst] in Hk.
    replace (String.eqb k k') with false by (symmetry; apply String.eqb_neq; auto). exact IH. }
  assert (E1 : find_z d' (ui_db (build_info info_db m)) = None).
  { apply Fz. cbn [build_info ui_db]. unfold db_map. constructor; [cbn [fst]; auto|]. apply Forall_rev. apply Forall_forall. intros e Hin.
    apply in_map_iff in Hin. destruct Hin as [e0 [<- Hin]]. rewrite Forall_forall in Hdb. cbn [fst]. auto. }
  assert (E2 : find_z t' (ui_tbl (build_info info_db m)) = None).
  { apply Fz. cbn [build_info ui_tbl]. unfold tbl_map. apply Forall_rev. apply Forall_forall. intros e Hin.
    apply in_map_iff in Hin. destruct Hin as [e0 [<- Hin]]. rewrite Forall_forall in Ht'. cbn [fst]. auto. }
  assert (E3 : find_s n (ui_name (build_info info_db m)) = None).
  { apply Fs. cbn [build_info ui_name]. unfold name_map. apply Forall_rev. apply Forall_forall. intros e Hin.
    apply in_map_iff in Hin. destruct Hin as [e0 [<- Hin]]. rewrite Forall_forall in Hnm. cbn [fst]. auto. }
  assert (E4 : find_z t' (ui_acl_tbl (build_info info_db m)) = None).
  { apply Fz. cbn [build_info ui_acl_tbl]. unfold acl_tbl_map. apply Forall_rev. apply Forall_forall. intros e Hin.
    apply in_flat_map in Hin. destruct Hin as [e0 [Hin0 Hin]]. rewrite Forall_forall in Ht'. destruct (tp_acl e0); [|destruct Hin].
    destruct Hin as [<-|[]]. cbn [fst]. auto. }
  unfold allow_op.
  assert (Cz : forall k l, (@count_z N k l >? 1) = false) by (intros k l; unfold count_z; destruct (find_z k l); reflexivity).
  rewrite Cz. unfold count_z. rewrite E4. cbn [Z.gtb Z.compare orb]. rewrite andb_false_r.
  unfold allow_op_v1. cbn [build_info ui_super]. rewrite Hs. unfold allow_read, allow_write.
  rewrite E1, E2, E3. destruct s; reflexivity.
Qed.
