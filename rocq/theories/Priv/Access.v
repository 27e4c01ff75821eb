(* C78, first half: READ and WRITE access. *)
From Coq Require Import String List ZArith NArith Bool Lia.
From Verif Require Import Priv.Model Priv.Spec.
Import ListNotations.
Open Scope Z_scope.

(* ---- association lists built from lists with at most one entry for a key ---- *)

Lemma find_z_app : forall {A} k (a b : list (Z * A)),
  find_z k (a ++ b) = match find_z k a with Some v => Some v | None => find_z k b end.
Proof. induction a as [|[x v] a IH]; intros; cbn [app find_z]; [reflexivity|]. destruct (k =? x); auto. Qed.

Lemma find_s_app : forall {A} k (a b : list (string * A)),
  find_s k (a ++ b) = match find_s k a with Some v => Some v | None => find_s k b end.
Proof. induction a as [|[x v] a IH]; intros; cbn [app find_s]; [reflexivity|]. destruct (String.eqb k x); auto. Qed.

Lemma find_z_rev : forall {E A} (key : E -> Z) (f : E -> A) k l,
  find_z k (rev (map (fun e => (key e, f e)) l)) =
  match rev (filter (fun e => key e =? k) l) with [] => None | e :: _ => Some (f e) end.
Proof.
  intros E A key f k. induction l as [|e l IH]; cbn [map rev filter]; [reflexivity|].
  rewrite find_z_app, IH. cbn [find_z]. rewrite (Z.eqb_sym k).
  destruct (key e =? k); cbn [rev]; destruct (rev (filter (fun e0 => key e0 =? k) l)); reflexivity.
Qed.

Lemma find_s_rev : forall {E A} (key : E -> string) (f : E -> A) k l,
  find_s k (rev (map (fun e => (key e, f e)) l)) =
  match rev (filter (fun e => String.eqb (key e) k) l) with [] => None | e :: _ => Some (f e) end.
Proof.
  intros E A key f k. induction l as [|e l IH]; cbn [map rev filter]; [reflexivity|].
  rewrite find_s_app, IH. cbn [find_s]. rewrite (String.eqb_sym k).
  destruct (String.eqb (key e) k); cbn [rev]; destruct (rev (filter (fun e0 => String.eqb (key e0) k) l)); reflexivity.
Qed.

Lemma find_z_acl : forall {E} (key : E -> Z) (f : E -> option N) k l,
  find_z k (rev (flat_map (fun e => match f e with Some a => [(key e, a)] | None => [] end) l)) =
  match rev (filter (fun e => (key e =? k) && is_some (f e)) l) with [] => None | e :: _ => f e end.
Proof.
  intros E key f k. induction l as [|e l IH]; cbn [flat_map rev filter]; [reflexivity|].
  rewrite rev_app_distr, find_z_app, IH.
  destruct (f e) as [a|] eqn:F; cbn [rev app find_z is_some].
  - rewrite (Z.eqb_sym k), andb_true_r. destruct (key e =? k); cbn [rev];
      destruct (rev (filter (fun e0 => (key e0 =? k) && is_some (f e0)) l)) eqn:R; cbn [app]; auto.
    + destruct (f e0) eqn:F0; [reflexivity|]. exfalso.
      assert (In e0 (filter (fun e0 => (key e0 =? k) && is_some (f e0)) l)) by (apply in_rev; rewrite R; left; reflexivity).
      apply filter_In in H. rewrite F0, andb_comm in H. destruct H; discriminate.
    + destruct (f e0) eqn:F0; [reflexivity|]. exfalso.
      assert (In e0 (filter (fun e0 => (key e0 =? k) && is_some (f e0)) l)) by (apply in_rev; rewrite R; left; reflexivity).
      apply filter_In in H. rewrite F0, andb_comm in H. destruct H; discriminate.
  - rewrite andb_false_r.
    destruct (rev (filter (fun e0 => (key e0 =? k) && is_some (f e0)) l)) eqn:R; auto.
    destruct (f e0) eqn:F0; [reflexivity|]. exfalso.
    assert (In e0 (filter (fun e0 => (key e0 =? k) && is_some (f e0)) l)) by (apply in_rev; rewrite R; left; reflexivity).
    apply filter_In in H. rewrite F0, andb_comm in H. destruct H; discriminate.
Qed.

(* ---- the entries for one database or table ---- *)

Definition db_at (d : Z) (l : list db_priv) : list db_priv := filter (fun e => dp_db e =? d) l.
Definition tbl_at (t : Z) (l : list tbl_priv) : list tbl_priv := filter (fun e => tp_tbl e =? t) l.

Lemma insert_db_other : forall p d l, dp_db p <> d -> db_at d (insert_db p l) = db_at d l.
Proof.
  intros p d l Hd. induction l as [|m l IH]; cbn [insert_db db_at filter].
  - apply Z.eqb_neq in Hd. rewrite Hd. reflexivity.
  - destruct (dp_db m =? dp_db p) eqn:E; cbn [db_at filter dp_db].
    + apply Z.eqb_eq in E. rewrite E. apply Z.eqb_neq in Hd. rewrite Hd. reflexivity.
    + fold (db_at d (insert_db p l)). fold (db_at d l). rewrite IH. reflexivity.
Qed.

Lemma insert_db_same : forall p l,
  db_at (dp_db p) (insert_db p l) =
  match db_at (dp_db p) l with
  | [] => [p]
  | m :: r => mkDb (dp_db m) (raise_rw (dp_force p) (dp_rw p) (dp_rw m)) (dp_force m) (add_acl (dp_acl p) (dp_acl m)) :: r
  end.
Proof.
  intros p l. induction l as [|m l IH]; cbn [insert_db db_at filter].
  - rewrite Z.eqb_refl. reflexivity.
  - destruct (dp_db m =? dp_db p) eqn:E; cbn [db_at filter dp_db]; rewrite E; [reflexivity|].
    exact IH.
Qed.

Lemma insert_tbl_other : forall p t l, tp_tbl p <> t -> tbl_at t (insert_tbl p l) = tbl_at t l.
Proof.
  intros p t l Ht. induction l as [|m l IH]; cbn [insert_tbl tbl_at filter].
  - apply Z.eqb_neq in Ht. rewrite Ht. reflexivity.
  - destruct ((tp_db m =? tp_db p) && (tp_tbl m =? tp_tbl p)) eqn:E; cbn [tbl_at filter tp_tbl].
    + apply andb_true_iff in E. destruct E as [_ E]. apply Z.eqb_eq in E. rewrite E. apply Z.eqb_neq in Ht. rewrite Ht. reflexivity.
    + fold (tbl_at t (insert_tbl p l)). fold (tbl_at t l). rewrite IH. reflexivity.
Qed.

Lemma insert_tbl_same : forall p l, (forall m, In m l -> tp_tbl m = tp_tbl p -> tp_db m = tp_db p) ->
  tbl_at (tp_tbl p) (insert_tbl p l) =
  match tbl_at (tp_tbl p) l with
  | [] => [p]
  | m :: r => mkTbl (tp_db m) (tp_tbl m) (tp_name m) (raise_rw (tp_force p) (tp_rw p) (tp_rw m)) (tp_force m) (add_acl (tp_acl p) (tp_acl m)) :: r
  end.
Proof.
  intros p l. induction l as [|m l IH]; intros Hc; cbn [insert_tbl tbl_at filter].
  - rewrite Z.eqb_refl. reflexivity.
  - destruct (tp_tbl m =? tp_tbl p) eqn:E.
    + rewrite (Hc m (or_introl eq_refl)) by (apply Z.eqb_eq; auto). rewrite Z.eqb_refl. cbn [andb tbl_at filter tp_tbl]. rewrite E.
      reflexivity.
    + rewrite andb_false_r. cbn [tbl_at filter]. rewrite E. apply IH. intros; apply Hc; auto. right; auto.
Qed.

Lemma filter_flat_map : forall {A B} (f : B -> bool) (g : A -> list B) l,
  filter f (flat_map g l) = flat_map (fun x => filter f (g x)) l.
Proof. induction l; cbn [flat_map filter]; [reflexivity|]. rewrite filter_app, IHl. reflexivity. Qed.

Lemma delete_db_other : forall p d l, dp_db p <> d -> db_at d (delete_db p l) = db_at d l.
Proof.
  intros p d l Hd. apply Z.eqb_neq in Hd. induction l as [|m l IH]; [reflexivity|].
  unfold delete_db, db_at in *. cbn [flat_map filter]. rewrite filter_app, IH.
  unfold delete_db_one. destruct (dp_db m =? dp_db p) eqn:E.
  - apply Z.eqb_eq in E. rewrite E, Hd, filter_app.
    destruct (lowers (dp_rw p) (dp_rw m)); destruct (dp_acl p); cbn [filter app dp_db]; rewrite ?Hd, ?E, ?Hd; reflexivity.
  - cbn [filter]. destruct (dp_db m =? d); reflexivity.
Qed.

Lemma delete_db_same : forall p l, db_at (dp_db p) (delete_db p l) = flat_map (delete_db_one p) (db_at (dp_db p) l).
Proof.
  intros p l. induction l as [|m l IH]; [reflexivity|].
  unfold delete_db, db_at in *. cbn [flat_map filter]. rewrite filter_app, IH.
  destruct (dp_db m =? dp_db p) eqn:E.
  - cbn [flat_map]. f_equal. unfold delete_db_one. rewrite E, filter_app.
    destruct (lowers (dp_rw p) (dp_rw m)); destruct (dp_acl p); cbn [filter dp_db]; rewrite ?Z.eqb_refl, ?E; reflexivity.
  - unfold delete_db_one at 1. rewrite E. cbn [filter]. rewrite E. reflexivity.
Qed.

Lemma delete_tbl_other : forall p t l, tp_tbl p <> t -> tbl_at t (delete_tbl p l) = tbl_at t l.
Proof.
  intros p t l Ht. apply Z.eqb_neq in Ht. induction l as [|m l IH]; [reflexivity|].
  unfold delete_tbl, tbl_at in *. cbn [flat_map filter]. rewrite filter_app, IH.
  unfold delete_tbl_one. destruct ((tp_db p =? tp_db m) && (tp_tbl p =? tp_tbl m)) eqn:E.
  - apply andb_true_iff in E. destruct E as [_ E]. apply Z.eqb_eq in E. rewrite <- E, Ht, filter_app.
    destruct (lowers (tp_rw p) (tp_rw m)); destruct (tp_acl p); cbn [filter app tp_tbl]; rewrite <- ?E, ?Ht; reflexivity.
  - cbn [filter]. destruct (tp_tbl m =? t); reflexivity.
Qed.

Lemma delete_tbl_same : forall p l, tbl_at (tp_tbl p) (delete_tbl p l) = flat_map (delete_tbl_one p) (tbl_at (tp_tbl p) l).
Proof.
  intros p l. induction l as [|m l IH]; [reflexivity|].
  unfold delete_tbl, tbl_at in *. cbn [flat_map filter]. rewrite filter_app, IH.
  destruct (tp_tbl m =? tp_tbl p) eqn:E.
  - cbn [flat_map]. f_equal. unfold delete_tbl_one. destruct ((tp_db p =? tp_db m) && (tp_tbl p =? tp_tbl m)).
    + rewrite filter_app. destruct (lowers (tp_rw p) (tp_rw m)); destruct (tp_acl p); cbn [filter tp_tbl]; rewrite ?Z.eqb_refl, ?E; reflexivity.
    + cbn [filter]. rewrite E. reflexivity.
  - unfold delete_tbl_one at 1. rewrite Z.eqb_sym in E. rewrite E, andb_false_r. cbn [filter].
    rewrite Z.eqb_sym in E. rewrite E. reflexivity.
Qed.

(* ---- the invariant ---- *)

Definition shows_db (d : Z) (a : option rw) (l : list db_priv) : Prop :=
  match a with
  | None => db_at d l = []
  | Some r => exists e, db_at d l = [e] /\ dp_rw e = Some r /\ dp_acl e = None
  end.
Definition shows_tbl (t : Z) (a : option rw) (l : list tbl_priv) : Prop :=
  match a with
  | None => tbl_at t l = []
  | Some r => exists e, tbl_at t l = [e] /\ tp_rw e = Some r /\ tp_acl e = None
  end.

Lemma raise_granted : forall f r o, raise_rw f (Some r) (Some o) = granted f r (Some o).
Proof. intros f r o. destruct f, r, o; reflexivity. Qed.

Lemma grant_db_shows : forall d es l a,
  Forall (fun e => dp_db e = d -> dp_rw e <> None /\ dp_acl e = None) es -> shows_db d a l ->
  shows_db d (grant_db d es a) (fold_left (fun l p => insert_db p l) es l).
Proof.
  induction es as [|e es IH]; intros l a F Hs; cbn [fold_left grant_db]; [exact Hs|].
  inversion F as [|e' es' He Hes]; subst. unfold grant_db in *. cbn [fold_left]. apply IH; [exact Hes|].
  destruct (dp_db e =? d) eqn:E.
  - apply Z.eqb_eq in E. destruct (He E) as [Hrw Hacl]. destruct (dp_rw e) as [r|] eqn:R; [|congruence].
    pose proof (insert_db_same e l) as I. rewrite E in I.
    destruct a as [o|]; cbn [shows_db] in Hs.
    + destruct Hs as [m [Hm [Hmr Hma]]]. rewrite Hm in I. rewrite R, Hmr, raise_granted, Hacl in I. cbn [add_acl] in I.
      destruct (granted (dp_force e) r (Some o)) as [g|] eqn:G.
      * cbn [shows_db]. eexists. split; [exact I|]. cbn [dp_rw dp_acl]. auto.
      * destruct o, (dp_force e); discriminate.
    + rewrite Hs in I. cbn [granted]. cbn [shows_db]. exists e. auto.
  - apply Z.eqb_neq in E. unfold shows_db in *. rewrite insert_db_other by auto. exact Hs.
Qed.

Lemma lowers_some : forall n o, lowers n (Some o) = match n, o with Some READ, WRITE => true | _, _ => false end.
Proof. intros [[]|] []; reflexivity. Qed.

Lemma revoke_db_shows : forall d es l a,
  Forall (fun e => dp_db e = d -> dp_acl e = None) es -> shows_db d a l ->
  shows_db d (revoke_db d es a) (fold_left (fun l p => delete_db p l) es l).
Proof.
  induction es as [|e es IH]; intros l a F Hs; [exact Hs|].
  inversion F as [|e' es' He Hes]; subst. unfold revoke_db in *. cbn [fold_left]. apply IH; [exact Hes|].
  destruct (dp_db e =? d) eqn:E.
  - apply Z.eqb_eq in E. specialize (He E). pose proof (delete_db_same e l) as I. rewrite E in I.
    destruct a as [o|]; cbn [shows_db] in Hs.
    + destruct Hs as [m [Hm [Hmr Hma]]]. rewrite Hm in I. cbn [flat_map] in I. rewrite app_nil_r in I.
      assert (Hk : dp_db m = d).
      { assert (In m (db_at d l)) by (rewrite Hm; left; reflexivity). apply filter_In in H. apply Z.eqb_eq. tauto. }
      unfold delete_db_one in I. rewrite Hk, E, Z.eqb_refl, He, app_nil_r, Hmr, lowers_some in I.
      destruct (dp_rw e) as [[]|] eqn:R, o; cbn [revoked shows_db]; auto.
      exists e. auto.
    + rewrite Hs in I. cbn [revoked shows_db]. exact I.
  - apply Z.eqb_neq in E. unfold shows_db in *. rewrite delete_db_other by auto. exact Hs.
Qed.

Lemma insert_tbl_in : forall p l m, In m (insert_tbl p l) ->
  m = p \/ exists m', In m' l /\ tp_db m = tp_db m' /\ tp_tbl m = tp_tbl m' /\ tp_name m = tp_name m'.
Proof.
  induction l as [|x l IH]; intros m Hi; cbn [insert_tbl] in Hi.
  - destruct Hi as [<-|[]]. auto.
  - destruct ((tp_db x =? tp_db p) && (tp_tbl x =? tp_tbl p)).
    + destruct Hi as [<-|Hi]; right; [exists x|exists m]; cbn [tp_db tp_tbl tp_name In]; auto.
    + destruct Hi as [<-|Hi]; [right; exists x; cbn [In]; auto|].
      destruct (IH _ Hi) as [?|[m' [? ?]]]; [auto|]. right. exists m'. split; [right; tauto|tauto].
Qed.

Lemma delete_tbl_in : forall p l m, In m (delete_tbl p l) ->
  m = p \/ exists m', In m' l /\ tp_db m = tp_db m' /\ tp_tbl m = tp_tbl m' /\ tp_name m = tp_name m'.
Proof.
  intros p l m Hi. unfold delete_tbl in Hi. apply in_flat_map in Hi. destruct Hi as [x [Hx Hm]].
  unfold delete_tbl_one in Hm. destruct ((tp_db p =? tp_db x) && (tp_tbl p =? tp_tbl x)).
  - apply in_app_or in Hm. destruct Hm as [Hm|Hm].
    + destruct (lowers (tp_rw p) (tp_rw x)); [|destruct Hm]. destruct Hm as [<-|[]]. auto.
    + destruct (tp_acl p); [|destruct Hm]. destruct Hm as [<-|[]]. right. exists x. cbn [tp_db tp_tbl tp_name]. auto.
  - destruct Hm as [<-|[]]. right. exists x. auto.
Qed.

(* A property of the names and identifiers of an entry. *)
Definition by_ids (P : Z -> Z -> string -> Prop) (e : tbl_priv) : Prop := P (tp_db e) (tp_tbl e) (tp_name e).

Lemma insert_tbl_ids : forall P es l, Forall (by_ids P) es -> Forall (by_ids P) l ->
  Forall (by_ids P) (fold_left (fun l p => insert_tbl p l) es l).
Proof.
  induction es as [|e es IH]; intros l Fe Fl; [exact Fl|]. inversion Fe; subst. cbn [fold_left]. apply IH; auto.
  apply Forall_forall. intros m Hm. destruct (insert_tbl_in _ _ _ Hm) as [->|[m' [Hi [A [B C]]]]]; auto.
  unfold by_ids. rewrite A, B, C. rewrite Forall_forall in Fl. apply Fl; auto.
Qed.

Lemma delete_tbl_ids : forall P es l, Forall (by_ids P) es -> Forall (by_ids P) l ->
  Forall (by_ids P) (fold_left (fun l p => delete_tbl p l) es l).
Proof.
  induction es as [|e es IH]; intros l Fe Fl; [exact Fl|]. inversion Fe; subst. cbn [fold_left]. apply IH; auto.
  apply Forall_forall. intros m Hm. destruct (delete_tbl_in _ _ _ Hm) as [->|[m' [Hi [A [B C]]]]]; auto.
  unfold by_ids. rewrite A, B, C. rewrite Forall_forall in Fl. apply Fl; auto.
Qed.

(* Entries for table t are in database d. *)
Definition in_db (d t : Z) : Z -> Z -> string -> Prop := fun d' t' _ => t' = t -> d' = d.

Lemma grant_tbl_shows : forall d t es l a,
  Forall (fun e => tp_tbl e = t -> tp_rw e <> None /\ tp_acl e = None) es ->
  Forall (by_ids (in_db d t)) es -> Forall (by_ids (in_db d t)) l -> shows_tbl t a l ->
  shows_tbl t (grant_tbl t es a) (fold_left (fun l p => insert_tbl p l) es l).
Proof.
  induction es as [|e es IH]; intros l a F Fe Fl Hs; [exact Hs|].
  inversion F as [|e' es' He Hes]; subst. inversion Fe as [|e' es' Ie Ies]; subst.
  unfold grant_tbl in *. cbn [fold_left]. apply IH; auto.
  { apply (insert_tbl_ids (in_db d t) [e]); auto. }
  destruct (tp_tbl e =? t) eqn:E.
  - apply Z.eqb_eq in E. destruct (He E) as [Hrw Hacl]. destruct (tp_rw e) as [r|] eqn:R; [|congruence].
    assert (Hc : forall m, In m l -> tp_tbl m = tp_tbl e -> tp_db m = tp_db e).
    { intros m Hm Et. rewrite Forall_forall in Fl. specialize (Fl _ Hm). unfold by_ids, in_db in *.
      rewrite (Ie E). apply Fl. congruence. }
    pose proof (insert_tbl_same e l Hc) as I. rewrite E in I.
    destruct a as [o|]; cbn [shows_tbl] in Hs.
    + destruct Hs as [m [Hm [Hmr Hma]]]. rewrite Hm in I. rewrite R, Hmr, raise_granted, Hacl in I. cbn [add_acl] in I.
      destruct (granted (tp_force e) r (Some o)) as [g|] eqn:G.
      * cbn [shows_tbl]. eexists. split; [exact I|]. cbn [tp_rw tp_acl]. auto.
      * destruct o, (tp_force e); discriminate.
    + rewrite Hs in I. cbn [granted shows_tbl]. exists e. auto.
  - apply Z.eqb_neq in E. unfold shows_tbl in *. rewrite insert_tbl_other by auto. exact Hs.
Qed.

Lemma revoke_tbl_shows : forall d t es l a,
  Forall (fun e => tp_tbl e = t -> tp_acl e = None) es ->
  Forall (by_ids (in_db d t)) es -> Forall (by_ids (in_db d t)) l -> shows_tbl t a l ->
  shows_tbl t (revoke_tbl t es a) (fold_left (fun l p => delete_tbl p l) es l).
Proof.
  induction es as [|e es IH]; intros l a F Fe Fl Hs; [exact Hs|].
  inversion F as [|e' es' He Hes]; subst. inversion Fe as [|e' es' Ie Ies]; subst.
  unfold revoke_tbl in *. cbn [fold_left]. apply IH; auto.
  { apply (delete_tbl_ids (in_db d t) [e]); auto. }
  destruct (tp_tbl e =? t) eqn:E.
  - apply Z.eqb_eq in E. specialize (He E). pose proof (delete_tbl_same e l) as I. rewrite E in I.
    destruct a as [o|]; cbn [shows_tbl] in Hs.
    + destruct Hs as [m [Hm [Hmr Hma]]]. rewrite Hm in I. cbn [flat_map] in I. rewrite app_nil_r in I.
      assert (Hk : In m l /\ tp_tbl m = t).
      { assert (In m (tbl_at t l)) by (rewrite Hm; left; reflexivity). apply filter_In in H. rewrite Z.eqb_eq in H. tauto. }
      destruct Hk as [Hin Hk]. rewrite Forall_forall in Fl. specialize (Fl _ Hin). unfold by_ids, in_db in *.
      unfold delete_tbl_one in I. rewrite (Ie E), (Fl Hk), Hk, E, !Z.eqb_refl, He, app_nil_r, Hmr, lowers_some in I. cbn [andb] in I.
      destruct (tp_rw e) as [[]|] eqn:R, o; cbn [revoked shows_tbl]; auto.
      exists e. auto.
    + rewrite Hs in I. cbn [revoked shows_tbl]. exact I.
  - apply Z.eqb_neq in E. unfold shows_tbl in *. rewrite delete_tbl_other by auto. exact Hs.
Qed.

(* ---- the whole history ---- *)

Lemma filter_filter : forall {A} (f g : A -> bool) l, filter f (filter g l) = filter (fun x => g x && f x) l.
Proof. induction l as [|x l IH]; cbn [filter]; [reflexivity|]. destruct (g x); cbn [filter andb]; rewrite IH; reflexivity. Qed.

Lemma shows_db_filter : forall d a l (ok : Z -> bool), shows_db d a l -> shows_db d (if ok d then a else None) (filter (fun e => ok (dp_db e)) l).
Proof.
  intros d a l ok Hs.
  assert (E : db_at d (filter (fun e => ok (dp_db e)) l) = if ok d then db_at d l else []).
  { unfold db_at. clear Hs. induction l as [|x l IH]; cbn [filter]; [destruct (ok d); reflexivity|].
    destruct (ok (dp_db x)) eqn:K; cbn [filter]; destruct (dp_db x =? d) eqn:D; rewrite IH; try reflexivity;
      apply Z.eqb_eq in D; rewrite D in K; rewrite K; reflexivity. }
  unfold shows_db in *. rewrite E. destruct (ok d); [exact Hs|reflexivity].
Qed.
Lemma shows_tbl_filter : forall t a l (ok : Z -> bool), shows_tbl t a l -> shows_tbl t (if ok t then a else None) (filter (fun e => ok (tp_tbl e)) l).
Proof.
  intros t a l ok Hs.
  assert (E : tbl_at t (filter (fun e => ok (tp_tbl e)) l) = if ok t then tbl_at t l else []).
  { unfold tbl_at. clear Hs. induction l as [|x l IH]; cbn [filter]; [destruct (ok t); reflexivity|].
    destruct (ok (tp_tbl x)) eqn:K; cbn [filter]; destruct (tp_tbl x =? t) eqn:D; rewrite IH; try reflexivity;
      apply Z.eqb_eq in D; rewrite D in K; rewrite K; reflexivity. }
  unfold shows_tbl in *. rewrite E. destruct (ok t); [exact Hs|reflexivity].
Qed.

Lemma drop_invalid_dbs : forall a b m, up_dbs (drop_invalid a b m) = filter (fun d => a (dp_db d)) (up_dbs m).
Proof.
  intros a b m. unfold drop_invalid.
  destruct (Nat.ltb _ (length (up_dbs m)) || _) eqn:E; [reflexivity|].
  apply orb_false_iff in E. destruct E as [E _]. apply Nat.ltb_ge in E.
  symmetry. clear -E. induction (up_dbs m) as [|x l IH]; cbn [filter] in *; [reflexivity|].
  destruct (a (dp_db x)); cbn [length] in *; [f_equal; apply IH; lia|].
  assert (L : (length (filter (fun d => a (dp_db d)) l) <= length l)%nat)
    by (clear; induction l as [|y l IHl]; cbn [filter length]; [lia|]; destruct (a (dp_db y)); cbn [length]; lia).
  lia.
Qed.
Lemma drop_invalid_tbls : forall a b m, up_tbls (drop_invalid a b m) = filter (fun d => b (tp_tbl d)) (up_tbls m).
Proof.
  intros a b m. unfold drop_invalid.
  destruct (Nat.ltb _ (length (up_dbs m)) || _) eqn:E; [reflexivity|].
  apply orb_false_iff in E. destruct E as [_ E]. apply Nat.ltb_ge in E.
  symmetry. clear -E. induction (up_tbls m) as [|x l IH]; cbn [filter] in *; [reflexivity|].
  destruct (b (tp_tbl x)); cbn [length] in *; [f_equal; apply IH; lia|].
  assert (L : (length (filter (fun d => b (tp_tbl d)) l) <= length l)%nat)
    by (clear; induction l as [|y l IHl]; cbn [filter length]; [lia|]; destruct (b (tp_tbl y)); cbn [length]; lia).
  lia.
Qed.
Lemma drop_invalid_rest : forall a b m, up_super (drop_invalid a b m) = up_super m /\ up_acl (drop_invalid a b m) = up_acl m.
Proof. intros a b m. unfold drop_invalid. destruct (_ || _); auto. Qed.

Definition named_so (d t : Z) (n : string) : Z -> Z -> string -> Prop := fun d' t' n' => (t' = t -> d' = d) /\ (n' = n <-> t' = t).

Lemma named_in_db : forall d t n l, Forall (by_ids (named_so d t n)) l -> Forall (by_ids (in_db d t)) l.
Proof. intros d t n l F. eapply Forall_impl; [|exact F]. intros e [? ?]. auto. Qed.

Lemma set_user_same : forall s u v, set_user s u v u = v.
Proof. intros. unfold set_user. rewrite String.eqb_refl. reflexivity. Qed.
Lemma set_user_other : forall s u v x, x <> u -> set_user s u v x = s x.
Proof. intros s u v x Hx. unfold set_user. apply String.eqb_neq in Hx. rewrite Hx. reflexivity. Qed.

Definition shows (u : string) (d t : Z) (n : string) (dba tba : option rw) (sup : bool) (s : meta) : Prop :=
  exists m, s u = Some m /\ shows_db d dba (up_dbs m) /\ shows_tbl t tba (up_tbls m) /\ get_bool (up_super m) = sup /\
    Forall (by_ids (named_so d t n)) (up_tbls m).

Lemma step_other : forall s o u, s u <> None ->
  match o with
  | OCreate _ _ | OInvalid _ _ => False
  | ODrop v | OModify v _ | OAdd v _ | ORemove v _ => v <> u
  end -> meta_step s o u = s u.
Proof.
  intros s o u Hs Ho. destruct o; try contradiction; cbn [meta_step]; destruct (s u0); auto; apply set_user_other; congruence.
Qed.

Lemma shows_step : forall u d t n o dba tba sup s,
  o <> ODrop u ->
  (forall q, o = OAdd u q -> by_access d t q) ->
  (forall q, o = OAdd u q \/ o = ORemove u q -> no_rights d t q /\ Forall (by_ids (named_so d t n)) (up_tbls q)) ->
  shows u d t n dba tba sup s ->
  shows u d t n (db_after u d dba o) (tbl_after u t tba o) (super_after u sup o) (meta_step s o).
Proof.
  intros u d t n o dba tba sup s Hd Ha Hr Hs. destruct Hs as [m [Hm [Hdb [Htb [Hsu Hn]]]]].
  assert (Hne : s u <> None) by congruence.
  destruct o as [v q|v|v q|v q|v q|a b]; cbn [db_after tbl_after super_after].
  - exists m. repeat (split; [|solve [auto]] || split); auto. cbn [meta_step]. destruct (String.eqb v u) eqn:E.
    + apply String.eqb_eq in E. subst v. rewrite Hm. exact Hm.
    + apply String.eqb_neq in E. destruct (s v); auto. rewrite set_user_other by congruence. exact Hm.
  - exists m. split; [|auto]. rewrite step_other; auto. congruence.
  - destruct (String.eqb v u) eqn:E.
    + apply String.eqb_eq in E. subst v. cbn [meta_step]. rewrite Hm.
      exists (modify_user q m). rewrite set_user_same. auto.
    + apply String.eqb_neq in E. exists m. split; [|auto]. rewrite step_other; auto.
  - destruct (String.eqb v u) eqn:E.
    + apply String.eqb_eq in E. subst v. cbn [meta_step]. rewrite Hm. exists (add_privilege q m). rewrite set_user_same.
      destruct (Ha q eq_refl) as [A1 A2]. destruct (Hr q (or_introl eq_refl)) as [_ A3].
      unfold add_privilege. cbn [up_dbs up_tbls up_super].
      split; [reflexivity|]. split; [apply grant_db_shows; auto|]. split.
      { apply (grant_tbl_shows d); auto; eapply named_in_db; eauto. }
      split.
      { unfold set_if. destruct (up_super q); auto. }
      apply insert_tbl_ids; auto.
    + apply String.eqb_neq in E. exists m. split; [|auto]. rewrite step_other; auto.
  - destruct (String.eqb v u) eqn:E.
    + apply String.eqb_eq in E. subst v. cbn [meta_step]. rewrite Hm. exists (drop_privilege q m). rewrite set_user_same.
      destruct (Hr q (or_intror eq_refl)) as [[A1 A2] A3].
      unfold drop_privilege. cbn [up_dbs up_tbls up_super].
      split; [reflexivity|]. split; [apply revoke_db_shows; auto|]. split.
      { apply (revoke_tbl_shows d); auto; eapply named_in_db; eauto. }
      split; [exact Hsu|]. apply delete_tbl_ids; auto.
    + apply String.eqb_neq in E. exists m. split; [|auto]. rewrite step_other; auto.
  - cbn [meta_step]. exists (drop_invalid a b m). split; [rewrite Hm; reflexivity|].
    rewrite drop_invalid_dbs, drop_invalid_tbls. destruct (drop_invalid_rest a b m) as [-> _].
    split; [apply shows_db_filter; auto|]. split; [apply shows_tbl_filter; auto|]. split; [exact Hsu|].
    apply Forall_forall. intros e He. apply filter_In in He. rewrite Forall_forall in Hn. apply Hn. tauto.
Qed.

Lemma shows_run : forall u d t n h dba tba sup s,
  stays u h -> Forall (by_access d t) (additions_of u h) ->
  Forall (no_rights d t) (requests_of u h) -> Forall (fun q => Forall (by_ids (named_so d t n)) (up_tbls q)) (requests_of u h) ->
  shows u d t n dba tba sup s ->
  shows u d t n (fold_left (db_after u d) h dba) (fold_left (tbl_after u t) h tba) (fold_left (super_after u) h sup) (fold_left meta_step h s).
Proof.
  induction h as [|o h IH]; intros dba tba sup s St Ad Rq Nm Hs; [exact Hs|].
  cbn [fold_left]. unfold additions_of, requests_of in *. cbn [flat_map] in *.
  apply Forall_app in Ad, Rq, Nm. destruct Ad as [Ad1 Ad2], Rq as [Rq1 Rq2], Nm as [Nm1 Nm2].
  apply IH; auto.
  { intros Hi. apply St. right. exact Hi. }
  apply shows_step; auto.
  - intros ->. apply St. left. reflexivity.
  - intros q ->. rewrite String.eqb_refl in Ad1. inversion Ad1; auto.
  - intros q [->| ->]; rewrite String.eqb_refl in Rq1, Nm1; inversion Rq1; inversion Nm1; auto.
Qed.

Lemma at_most_one : forall {A} (l : list A), (length l <= 1)%nat -> l = [] \/ exists e, l = [e].
Proof. intros A [|x [|y l]] H1; cbn [length] in H1; eauto. lia. Qed.

Lemma grant_db_skip : forall d es a, db_at d es = [] -> grant_db d es a = a.
Proof.
  induction es as [|e es IH]; intros a Hd; [reflexivity|]. unfold grant_db, db_at in *. cbn [fold_left filter] in *.
  destruct (dp_db e =? d); [discriminate|]. apply IH; auto.
Qed.
Lemma grant_db_create : forall d es,
  Forall (fun e => dp_db e = d -> dp_rw e <> None /\ dp_acl e = None) es -> (length (db_at d es) <= 1)%nat ->
  shows_db d (grant_db d es None) es.
Proof.
  intros d es F L. destruct (at_most_one _ L) as [E|[e E]].
  - rewrite grant_db_skip by auto. exact E.
  - assert (G : exists r, grant_db d es None = Some r /\ dp_rw e = Some r /\ dp_acl e = None).
    { clear L. revert E. induction F as [|x es Hx F IH]; intros E; [discriminate|].
      unfold db_at in E. cbn [filter] in E. unfold grant_db. cbn [fold_left].
      destruct (dp_db x =? d) eqn:D.
      - inversion E as [[E1 E2]]. subst x. apply Z.eqb_eq in D. destruct (Hx D) as [Hr Hc].
        destruct (dp_rw e) as [r|] eqn:R; [|congruence]. exists r. cbn [granted].
        change (grant_db d es (Some r) = Some r /\ Some r = Some r /\ dp_acl e = None).
        rewrite grant_db_skip by (exact E2). rewrite Hc. auto.
      - apply IH. exact E. }
    destruct G as [r [G [R C]]]. rewrite G. cbn [shows_db]. exists e. auto.
Qed.
Lemma grant_tbl_skip : forall d es a, tbl_at d es = [] -> grant_tbl d es a = a.
Proof.
  induction es as [|e es IH]; intros a Hd; [reflexivity|]. unfold grant_tbl, tbl_at in *. cbn [fold_left filter] in *.
  destruct (tp_tbl e =? d); [discriminate|]. apply IH; auto.
Qed.
Lemma grant_tbl_create : forall d es,
  Forall (fun e => tp_tbl e = d -> tp_rw e <> None /\ tp_acl e = None) es -> (length (tbl_at d es) <= 1)%nat ->
  shows_tbl d (grant_tbl d es None) es.
Proof.
  intros d es F L. destruct (at_most_one _ L) as [E|[e E]].
  - rewrite grant_tbl_skip by auto. exact E.
  - assert (G : exists r, grant_tbl d es None = Some r /\ tp_rw e = Some r /\ tp_acl e = None).
    { clear L. revert E. induction F as [|x es Hx F IH]; intros E; [discriminate|].
      unfold tbl_at in E. cbn [filter] in E. unfold grant_tbl. cbn [fold_left].
      destruct (tp_tbl x =? d) eqn:D.
      - inversion E as [[E1 E2]]. subst x. apply Z.eqb_eq in D. destruct (Hx D) as [Hr Hc].
        destruct (tp_rw e) as [r|] eqn:R; [|congruence]. exists r. cbn [granted].
        change (grant_tbl d es (Some r) = Some r /\ Some r = Some r /\ tp_acl e = None).
        rewrite grant_tbl_skip by (exact E2). rewrite Hc. auto.
      - apply IH. exact E. }
    destruct G as [r [G [R C]]]. rewrite G. cbn [shows_tbl]. exists e. auto.
Qed.

Lemma shows_history : forall u q0 h d t n s, access_history u q0 h d t n -> s u = None ->
  shows u d t n (db_access u q0 h d) (tbl_access u q0 h t) (is_super u q0 h) (fold_left meta_step (OCreate u q0 :: h) s).
Proof.
  intros u q0 h d t n s [St [[O1 O2] [[B1 B2] [Ad [Rq Nm]]]]] Hs. inversion Nm as [|x y N0 Nr]; subst.
  cbn [fold_left]. apply shows_run; auto.
  exists (create_user q0). cbn [meta_step]. rewrite Hs, set_user_same. unfold create_user. cbn [up_dbs up_tbls up_super].
  split; [reflexivity|]. split; [apply grant_db_create; auto|]. split; [apply grant_tbl_create; auto|].
  split; [destruct (up_super q0); reflexivity|]. exact N0.
Qed.

(* ---- the decision ---- *)

Lemma db_map_shows : forall info_db d a l, d <> info_db -> shows_db d a l -> find_z d (db_map info_db l) = a.
Proof.
  intros info_db d a l Hd Hs. unfold db_map. cbn [find_z]. apply Z.eqb_neq in Hd. rewrite Hd, (find_z_rev dp_db).
  change (filter (fun e => dp_db e =? d) l) with (db_at d l).
  destruct a as [r|]; cbn [shows_db] in Hs.
  - destruct Hs as [e [-> [R _]]]. cbn [rev app]. rewrite R. reflexivity.
  - rewrite Hs. reflexivity.
Qed.

Lemma tbl_map_shows : forall t a l, shows_tbl t a l -> find_z t (tbl_map l) = a.
Proof.
  intros t a l Hs. unfold tbl_map. rewrite (find_z_rev tp_tbl).
  change (filter (fun e => tp_tbl e =? t) l) with (tbl_at t l).
  destruct a as [r|]; cbn [shows_tbl] in Hs.
  - destruct Hs as [e [-> [R _]]]. cbn [rev app]. rewrite R. reflexivity.
  - rewrite Hs. reflexivity.
Qed.

Lemma name_map_shows : forall d t n a l, Forall (by_ids (named_so d t n)) l -> shows_tbl t a l -> find_s n (name_map l) = a.
Proof.
  intros d t n a l F Hs. unfold name_map. rewrite (find_s_rev tp_name).
  assert (E : filter (fun e => String.eqb (tp_name e) n) l = tbl_at t l).
  { unfold tbl_at. apply filter_ext_in. intros e He. rewrite Forall_forall in F. destruct (F _ He) as [_ Hn].
    apply eq_true_iff_eq. rewrite String.eqb_eq, Z.eqb_eq. exact Hn. }
  rewrite E. destruct a as [r|]; cbn [shows_tbl] in Hs.
  - destruct Hs as [e [-> [R _]]]. cbn [rev app]. rewrite R. reflexivity.
  - rewrite Hs. reflexivity.
Qed.

Lemma count_z_bool : forall {A} k (l : list (Z * A)), (count_z k l >? 1) = false.
Proof. intros A k l. unfold count_z. destruct (find_z k l); reflexivity. Qed.

Lemma acl_tbl_absent : forall t a l, shows_tbl t a l -> find_z t (acl_tbl_map l) = None.
Proof.
  intros t a l Hs. unfold acl_tbl_map. rewrite (find_z_acl tp_tbl tp_acl).
  assert (E : filter (fun e => (tp_tbl e =? t) && is_some (tp_acl e)) l = filter (fun e => is_some (tp_acl e)) (tbl_at t l))
    by (unfold tbl_at; rewrite filter_filter; reflexivity).
  rewrite E. destruct a as [r|]; cbn [shows_tbl] in Hs.
  - destruct Hs as [e [-> [_ Hc]]]. cbn [filter]. rewrite Hc. reflexivity.
  - rewrite Hs. reflexivity.
Qed.

Lemma is_write_iff : forall r, is_write r = true <-> r = Some WRITE.
Proof. intros [[]|]; cbn [is_write]; split; intros; congruence. Qed.
Lemma is_some_iff : forall {A} (r : option A), is_some r = true <-> r <> None.
Proof. intros A [a|]; cbn [is_some]; split; intros; congruence. Qed.

Lemma access_decides : forall info_db u q0 h d t n s st,
  access_history u q0 h d t n -> st u = None -> d <> info_db -> s <> SUnion ->
  exists m, fold_left meta_step (OCreate u q0 :: h) st u = Some m /\
    (allow_op (build_info info_db m) s d t n = true <->
     permits (is_super u q0 h) s (db_access u q0 h d) (tbl_access u q0 h t)).
Proof.
  intros info_db u q0 h d t n s st Hh Hst Hd Hs.
  destruct (shows_history u q0 h d t n st Hh Hst) as [m [Hm [Hdb [Htb [Hsu Hn]]]]].
  exists m. split; [exact Hm|].
  unfold allow_op. rewrite count_z_bool. cbn [build_info ui_acl_tbl]. unfold count_z.
  rewrite (acl_tbl_absent _ _ _ Htb). cbn [orb Z.gtb Z.compare]. rewrite andb_false_r.
  unfold allow_op_v1. cbn [build_info ui_super]. rewrite Hsu. unfold permits, reads.
  destruct (is_super u q0 h); [split; auto|].
  unfold allow_read, allow_write. cbn [build_info ui_db ui_tbl ui_name].
  rewrite (db_map_shows info_db d _ _ Hd Hdb), (tbl_map_shows t _ _ Htb), (name_map_shows d t n _ _ Hn Htb).
  destruct s; try congruence; rewrite !orb_true_iff, ?is_write_iff, ?is_some_iff.
  { split.
    - intros [[?|?]|?]; right; right; right; auto.
    - intros [?|[E|[E|[_ [?|?]]]]]; try discriminate; auto; rewrite ?E; left; [left|right]; discriminate. }
  all: split; [intros [[?|?]|?]; auto|intros [?|[?|[?|[[?|?] ?]]]]; try discriminate; auto].
Qed.
