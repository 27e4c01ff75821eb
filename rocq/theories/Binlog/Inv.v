(* The replica's check point and map against its log. *)
From Coq Require Import List ZArith Bool Lia Sorting.Sorted.
From Verif Require Import Binlog.Spec Binlog.Model Binlog.Maps Binlog.Honest.
Import ListNotations.
Open Scope Z_scope.

Definition row_of (o : op) : brow := Row (o_kind o) (o_start o) (o_cnt o).
Definition put_row (m : list (Z * brow)) (o : op) := put (o_ts o) (row_of o) m.
Definition rows_of (l : list op) : list (Z * brow) := fold_left put_row l [].
Definition put_val (m : list (Z * nat)) (o : op) :=
  match o_kind o with Prewrite => put (o_ts o) (o_val o) m | _ => m end.
Definition vals_of (l : list op) : list (Z * nat) := fold_left put_val l [].

Lemma rows_of_snoc l o : rows_of (l ++ [o]) = put_row (rows_of l) o.
Proof. unfold rows_of. now rewrite fold_left_app. Qed.
Lemma vals_of_snoc l o : vals_of (l ++ [o]) = put_val (vals_of l) o.
Proof. unfold vals_of. now rewrite fold_left_app. Qed.

Lemma rows_sorted l : sorted (rows_of l).
Proof.
  induction l as [|o l IH] using rev_ind; [constructor|]. rewrite rows_of_snoc. now apply put_sorted.
Qed.

Lemma rows_last l t r : get t (rows_of l) = Some r ->
  exists l1 o l2, l = l1 ++ o :: l2 /\ o_ts o = t /\ r = row_of o /\ forall x, In x l2 -> o_ts x <> t.
Proof.
  induction l as [|o l IH] using rev_ind; [discriminate|]. rewrite rows_of_snoc. unfold put_row. rewrite put_get.
  destruct (t =? o_ts o) eqn:E; intros G.
  - injection G as <-. apply Z.eqb_eq in E. exists l, o, []. repeat split; auto.
  - apply Z.eqb_neq in E. destruct (IH G) as (l1 & o' & l2 & -> & T & R & N).
    exists l1, o', (l2 ++ [o]). split; [now rewrite <- app_assoc|]. repeat split; auto.
    intros x Hx. apply in_app_iff in Hx as [Hx|[<-|[]]]; auto.
Qed.

Lemma rows_there l o : In o l -> exists r, get (o_ts o) (rows_of l) = Some r.
Proof.
  induction l as [|x l IH] using rev_ind; [easy|]. intros Hin. rewrite rows_of_snoc. unfold put_row. rewrite put_get.
  destruct (o_ts o =? o_ts x) eqn:E; eauto. apply in_app_iff in Hin as [Hin|[->|[]]]; auto.
  now rewrite Z.eqb_refl in E.
Qed.

Lemma vals_some l t v : get t (vals_of l) = Some v -> exists o, In o l /\ o_kind o = Prewrite /\ o_ts o = t /\ o_val o = v.
Proof.
  induction l as [|o l IH] using rev_ind; [discriminate|]. rewrite vals_of_snoc. unfold put_val. intros G.
  assert (R : get t (vals_of l) = Some v -> exists o', In o' (l ++ [o]) /\ o_kind o' = Prewrite /\ o_ts o' = t /\ o_val o' = v).
  { intros G'. destruct (IH G') as (o' & Ho & R). exists o'. rewrite in_app_iff. auto. }
  destruct (o_kind o) eqn:K; auto. rewrite put_get in G. destruct (t =? o_ts o) eqn:E; auto.
  injection G as <-. apply Z.eqb_eq in E. exists o. rewrite in_app_iff. cbn. auto.
Qed.

Lemma vals_there l o : In o l -> o_kind o = Prewrite -> exists v, get (o_ts o) (vals_of l) = Some v.
Proof.
  induction l as [|x l IH] using rev_ind; [easy|]. intros Hin K. rewrite vals_of_snoc. unfold put_val.
  apply in_app_iff in Hin as [Hin|[->|[]]].
  - destruct (IH Hin K) as [v G]. destruct (o_kind x); eauto. rewrite put_get. destruct (o_ts o =? o_ts x); eauto.
  - rewrite K, put_get, Z.eqb_refl. eauto.
Qed.

Definition is_ts (l : list op) (t : Z) : Prop := exists o, In o l /\ o_ts o = t.
Definition resolves (o : op) (t : Z) : Prop := (o_kind o = Commit \/ o_kind o = Rollback) /\ o_start o = t.
Definition unsettled (l : list op) (t : Z) : Prop := exists l1 p l2,
  l = l1 ++ p :: l2 /\ o_kind p = Prewrite /\ o_ts p = t /\ forall o, In o l2 -> ~ resolves o t.

Record inv (l : list op) (s : st) : Prop := {
  v_rows : rows s = rows_of l;
  v_vals : vals s = vals_of l;
  v_sorted : sorted (tsmap s);
  v_keys : forall k, In k (keys (tsmap s)) -> cp s <= k /\ is_ts l k;
  v_cp : is_ts l (cp s);
  v_max : max_ts s = -1 \/ is_ts l (max_ts s);
  v_saved : saved s = -1 \/ is_ts l (saved s);
  v_old : exists o rest, l = o :: rest /\ oldest s = o_ts o /\ saved_old s = o_ts o;
  v_pend : forall t, pending l t -> get t (tsmap s) = Some Prewrite;
  v_open : forall t, get t (tsmap s) = Some Prewrite -> unsettled l t
}.

Lemma is_ts_more l x t : is_ts l t -> is_ts (l ++ x) t.
Proof. intros (o & Ho & E). exists o. rewrite in_app_iff. auto. Qed.

Lemma pending_snoc l o t : pending (l ++ [o]) t ->
  ~ resolves o t /\ (o_kind o = Prewrite /\ o_ts o = t \/ pending l t).
Proof.
  intros [(p & Hp & K & T) N]. split.
  - intros [R E]. apply (N o); auto. rewrite in_app_iff. cbn. auto.
  - apply in_app_iff in Hp as [Hp|[->|[]]]; auto. right. split; [eauto|].
    intros x Hx. apply N. rewrite in_app_iff. auto.
Qed.

Lemma unsettled_snoc l o t : unsettled l t -> ~ resolves o t -> unsettled (l ++ [o]) t.
Proof.
  intros (l1 & p & l2 & -> & K & T & N) R. exists l1, p, (l2 ++ [o]). split; [now rewrite <- app_assoc|]. repeat split; auto.
  intros x Hx. apply in_app_iff in Hx as [Hx|[<-|[]]]; auto.
Qed.

Lemma is_ts_pos l t : honest l -> is_ts l t -> 0 < t.
Proof. intros HL (o & Ho & <-). now apply (h_pos l HL). Qed.

Lemma check_point_inv l s b : honest l -> inv l s -> inv l (update_check_point b s).
Proof.
  intros HL [R V So K C M Sa Old P O]. pose proof (is_ts_pos _ _ HL C) as C0. unfold update_check_point.
  destruct (cp s =? -1) eqn:E; [apply Z.eqb_eq in E; lia|].
  set (m := drop_fakes (tsmap s)). set (c := first_key m (max_ts s)).
  assert (Hc : c = -1 \/ is_ts l c).
  { subst c. destruct (first_key_in m (max_ts s)) as [[-> _]|Hin]; auto. right. apply K. now apply drop_fakes_keys. }
  assert (Hm : sorted m) by now apply drop_fakes_sorted.
  constructor; cbn; auto.
  - intros k Hk. split; [|now apply K, drop_fakes_keys].
    destruct (cp s <? c); [now apply first_key_le|now apply K, drop_fakes_keys].
  - destruct (cp s <? c) eqn:E2; auto. destruct Hc as [Hc|Hc]; auto. lia.
  - destruct b; auto.
  - intros t Ht. apply drop_fakes_get; auto.
  - intros t Ht. apply O. now apply drop_fakes_get_rev.
Qed.

Lemma apply_map_inv l s o : honest (l ++ [o]) -> inv l s -> inv (l ++ [o]) (update_map_apply (write_row s o) o).
Proof.
  intros HL I0. pose proof (honest_prefix _ _ HL) as HP. pose proof I0 as [R V So K C M Sa Old P O].
  assert (OldO : exists o0 rest, l ++ [o] = o0 :: rest /\ oldest s = o_ts o0 /\ saved_old s = o_ts o0).
  { destruct Old as (o0 & rest & -> & A & B). exists o0, (rest ++ [o]). auto. }
  pose proof (is_ts_pos _ _ HP C) as C0.
  assert (TO : is_ts (l ++ [o]) (o_ts o)) by (exists o; rewrite in_app_iff; cbn; auto).
  assert (RO : rows (write_row s o) = rows_of (l ++ [o])).
  { rewrite rows_of_snoc, <- R. reflexivity. }
  assert (VO : vals (write_row s o) = vals_of (l ++ [o])).
  { rewrite vals_of_snoc, <- V. reflexivity. }
  (* nothing happens to the map *)
  assert (STAY : (forall t, pending (l ++ [o]) t -> pending l t) ->
                 (forall t, get t (tsmap s) = Some Prewrite -> ~ resolves o t) ->
                 inv (l ++ [o]) (write_row s o)).
  { intros HPD HR. constructor; auto; cbn.
    - intros k Hk. destruct (K k Hk). split; auto. now apply is_ts_more.
    - now apply is_ts_more.
    - destruct M; auto. right. now apply is_ts_more.
    - destruct Sa; auto. right. now apply is_ts_more.
    - intros t Ht. apply unsettled_snoc; auto. }
  (* the map becomes m *)
  assert (DONE : forall m, sorted m -> (forall k, In k (keys m) -> is_ts (l ++ [o]) k) ->
                 (forall t, pending (l ++ [o]) t -> get t m = Some Prewrite) ->
                 (forall t, get t m = Some Prewrite -> unsettled (l ++ [o]) t) ->
                 inv (l ++ [o]) (set_mem (write_row s o) m (Z.max (max_ts s) (o_ts o)) (first_key m (o_ts o)))).
  { intros m Hs Hk Hp Ho. constructor; cbn; auto.
    - intros k Hin. split; auto. now apply first_key_le.
    - destruct (first_key_in m (o_ts o)) as [[-> _]|Hin]; auto.
    - right. destruct (Z.max_spec (max_ts s) (o_ts o)) as [[_ ->]|[L ->]]; auto.
      destruct M as [M|M]; [|now apply is_ts_more]. pose proof (h_pos _ HL o). rewrite in_app_iff in H. cbn in H.
      specialize (H (or_intror (or_introl eq_refl))). lia.
    - destruct Sa; auto. right. now apply is_ts_more. }
  assert (Hin : In o (l ++ [o])) by (rewrite in_app_iff; cbn; auto).
  unfold update_map_apply. cbn [cp tsmap max_ts write_row].
  destruct (cp s =? -1) eqn:E; [apply Z.eqb_eq in E; lia|].
  destruct (o_kind o) eqn:KO.
  - (* Fake *)
    assert (NR : forall t, ~ resolves o t) by (intros t [[X|X] _]; congruence).
    assert (PD : forall t, pending (l ++ [o]) t -> pending l t).
    { intros t Ht. apply pending_snoc in Ht as [_ [[X _]|Ht]]; [congruence|auto]. }
    destruct (o_ts o <=? cp s); [apply STAY; auto|]. apply DONE.
    + now apply put_sorted.
    + intros k Hk. apply put_keys in Hk as [->|Hk]; auto. apply is_ts_more. now apply K.
    + intros t Ht. rewrite put_get. destruct (t =? o_ts o) eqn:E2; auto. apply Z.eqb_eq in E2.
      destruct (PD t Ht) as [(p & Hp & KP & TP) _].
      assert (X : o_kind p = Fake); [|congruence]. eapply (h_fake _ HL o p); auto; [rewrite in_app_iff; auto|congruence].
    + intros t Ht. rewrite put_get in Ht. destruct (t =? o_ts o); [discriminate|]. apply unsettled_snoc; auto.
  - (* Prewrite *)
    assert (NR : forall t, ~ resolves o t) by (intros t [[X|X] _]; congruence).
    apply DONE.
    + now apply put_sorted.
    + intros k Hk. apply put_keys in Hk as [->|Hk]; auto. apply is_ts_more. now apply K.
    + intros t Ht. rewrite put_get. destruct (t =? o_ts o) eqn:E2; auto. apply Z.eqb_neq in E2.
      apply pending_snoc in Ht as [_ [[_ X]|Ht]]; [congruence|auto].
    + intros t Ht. rewrite put_get in Ht. destruct (t =? o_ts o) eqn:E2.
      * apply Z.eqb_eq in E2. exists l, o, []. repeat split; auto.
      * apply unsettled_snoc; auto.
  - (* Commit *)
    assert (PD : forall t, pending (l ++ [o]) t -> pending l t /\ t <> o_start o).
    { intros t Ht. apply pending_snoc in Ht as [N [[X _]|Ht]]; [congruence|]. split; auto. intros ->. apply N.
      split; auto. }
    destruct (o_start o <? cp s) eqn:E2.
    { apply STAY; [intros t Ht; now apply PD|]. intros t Ht [_ X]. apply Z.ltb_lt in E2.
      assert (In t (keys (tsmap s))) by (apply get_keys; eauto). apply K in H. lia. }
    destruct (get (o_start o) (tsmap s)) eqn:G.
    + apply DONE.
      * now apply del_sorted.
      * intros k0 Hk. apply del_keys in Hk as [Hk _]. apply is_ts_more. now apply K.
      * intros t Ht. rewrite del_get. apply PD in Ht as [Ht N]. apply Z.eqb_neq in N. rewrite N. auto.
      * intros t Ht. rewrite del_get in Ht. destruct (t =? o_start o) eqn:E3; [discriminate|]. apply Z.eqb_neq in E3.
        apply unsettled_snoc; auto. intros [_ X]. congruence.
    + apply STAY; [intros t Ht; now apply PD|]. intros t Ht [_ X]. congruence.
  - (* Rollback *)
    assert (PD : forall t, pending (l ++ [o]) t -> pending l t /\ t <> o_start o).
    { intros t Ht. apply pending_snoc in Ht as [N [[X _]|Ht]]; [congruence|]. split; auto. intros ->. apply N.
      split; auto. }
    destruct (o_start o <? cp s) eqn:E2.
    { apply STAY; [intros t Ht; now apply PD|]. intros t Ht [_ X]. apply Z.ltb_lt in E2.
      assert (In t (keys (tsmap s))) by (apply get_keys; eauto). apply K in H. lia. }
    destruct (get (o_start o) (tsmap s)) eqn:G.
    + apply DONE.
      * now apply del_sorted.
      * intros k0 Hk. apply del_keys in Hk as [Hk _]. apply is_ts_more. now apply K.
      * intros t Ht. rewrite del_get. apply PD in Ht as [Ht N]. apply Z.eqb_neq in N. rewrite N. auto.
      * intros t Ht. rewrite del_get in Ht. destruct (t =? o_start o) eqn:E3; [discriminate|]. apply Z.eqb_neq in E3.
        apply unsettled_snoc; auto. intros [_ X]. congruence.
    + apply STAY; [intros t Ht; now apply PD|]. intros t Ht [_ X]. congruence.
Qed.

(* ---------- the scan at a restart ---------- *)

Definition row_resolves (r : brow) (t : Z) : Prop := (r_kind r = Commit \/ r_kind r = Rollback) /\ r_start r = t.

Record scanned (all a : list (Z * brow)) (base : st) (s : st) : Prop := {
  n_rows : rows s = rows base; n_vals : vals s = vals base; n_saved : saved s = saved base;
  n_old : oldest s = oldest base /\ saved_old s = saved_old base;
  n_sorted : sorted (tsmap s);
  n_keys : forall k, In k (keys (tsmap s)) -> cp s <= k /\ In k (keys a);
  n_cp : cp s = saved base \/ In (cp s) (keys a);
  n_max : max_ts s = -1 \/ In (max_ts s) (keys a);
  n_pend : forall t r, In (t, r) a -> r_kind r = Prewrite -> (forall u r', In (u, r') all -> ~ row_resolves r' t) ->
    get t (tsmap s) = Some Prewrite;
  n_open : forall t, get t (tsmap s) = Some Prewrite -> exists r, In (t, r) a /\ r_kind r = Prewrite /\
    forall u r', In (u, r') a -> t < u -> ~ row_resolves r' t
}.

Lemma keys_app {V} (a b : list (Z * V)) : keys (a ++ b) = keys a ++ keys b.
Proof. unfold keys. apply map_app. Qed.

Lemma sorted_app_lt {V} (a : list (Z * V)) t r b : sorted (a ++ (t, r) :: b) -> forall k, In k (keys a) -> k < t.
Proof.
  unfold sorted. rewrite keys_app. cbn. generalize (keys a) (keys b). intros x y. induction x as [|z x IH]; [easy|].
  cbn. intros Hs k [->|Hk]; apply StronglySorted_inv in Hs as [Hs F].
  - rewrite Forall_forall in F. apply F. rewrite in_app_iff. cbn. auto.
  - now apply IH.
Qed.

Lemma scan_step all a t r b base s : sorted all -> all = a ++ (t, r) :: b -> 0 < t ->
  (forall k, In k (keys all) -> saved base <= k) ->
  scanned all a base s -> scanned all (a ++ [(t, r)]) base (update_map_scan s (t, r)).
Proof.
  intros Hs E T0 LO [R V Sa Old So K C M P O]. subst all.
  pose proof (sorted_app_lt _ _ _ _ Hs) as LT.
  assert (Hr : In (t, r) (a ++ (t, r) :: b)) by (rewrite in_app_iff; cbn; auto).
  assert (MX : max_ts s < t) by (destruct M as [->|M]; [lia|auto]).
  unfold update_map_scan. cbn [fst snd].
  replace (t <? max_ts s) with false by (symmetry; apply Z.ltb_ge; lia).
  assert (IN : forall k, In k (keys a) -> In k (keys (a ++ [(t, r)]))) by (intros; rewrite keys_app, in_app_iff; auto).
  assert (INT : In t (keys (a ++ [(t, r)]))) by (rewrite keys_app, in_app_iff; cbn; auto).
  assert (DONE : forall m, sorted m -> (forall k, In k (keys m) -> In k (keys (a ++ [(t, r)]))) ->
     (forall t0 r0, In (t0, r0) (a ++ [(t, r)]) -> r_kind r0 = Prewrite ->
        (forall u r', In (u, r') (a ++ (t, r) :: b) -> ~ row_resolves r' t0) -> get t0 m = Some Prewrite) ->
     (forall t0, get t0 m = Some Prewrite -> exists r0, In (t0, r0) (a ++ [(t, r)]) /\ r_kind r0 = Prewrite /\
        forall u r', In (u, r') (a ++ [(t, r)]) -> t0 < u -> ~ row_resolves r' t0) ->
     scanned (a ++ (t, r) :: b) (a ++ [(t, r)]) base (set_mem s m (Z.max (max_ts s) t) (first_key m t))).
  { intros m Hm Hk Hp Ho. constructor; cbn; auto.
    - intros k Hin. split; auto. now apply first_key_le.
    - right. destruct (first_key_in m t) as [[-> _]|Hin]; auto.
    - right. rewrite Z.max_r by lia. auto. }
  assert (STAY : r_kind r <> Prewrite -> (forall t0, get t0 (tsmap s) = Some Prewrite -> ~ row_resolves r t0) ->
     scanned (a ++ (t, r) :: b) (a ++ [(t, r)]) base s).
  { intros NP NR. constructor; auto.
    - intros k Hk. destruct (K k Hk). auto.
    - destruct C; auto.
    - destruct M; auto.
    - intros t0 r0 Hin KP. apply in_app_iff in Hin as [Hin|[X|[]]]; [now apply (P _ r0)|]. injection X as <- <-. congruence.
    - intros t0 G. destruct (O _ G) as (r0 & Hin & KP & NR0). exists r0. split; [rewrite in_app_iff; auto|]. split; auto.
      intros u r' Hu. apply in_app_iff in Hu as [Hu|[X|[]]]; [eauto|]. injection X as <- <-. auto. }
  assert (OLD : forall t0, r_kind r <> Commit -> r_kind r <> Rollback -> get t0 (tsmap s) = Some Prewrite ->
     exists r0, In (t0, r0) (a ++ [(t, r)]) /\ r_kind r0 = Prewrite /\
        forall u r', In (u, r') (a ++ [(t, r)]) -> t0 < u -> ~ row_resolves r' t0).
  { intros t0 N1 N2 G. destruct (O _ G) as (r0 & Hin & KP & NR0). exists r0. split; [rewrite in_app_iff; auto|]. split; auto.
    intros u r' Hu. apply in_app_iff in Hu as [Hu|[X|[]]]; [eauto|]. injection X as <- <-. intros _ [[X|X] _]; auto. }
  destruct (r_kind r) eqn:KR.
  - apply DONE.
    + now apply put_sorted.
    + intros k Hk. apply put_keys in Hk as [->|Hk]; auto. apply IN. now apply K.
    + intros t0 r0 Hin KP NR. apply in_app_iff in Hin as [Hin|[X|[]]]; [|injection X as <- <-; congruence].
      rewrite put_get. destruct (t0 =? t) eqn:E; [|now apply (P _ r0)]. apply Z.eqb_eq in E.
      assert (t0 < t); [|lia]. apply LT. apply (in_map fst) in Hin. exact Hin.
    + intros t0 G. rewrite put_get in G. destruct (t0 =? t); [discriminate|]. apply OLD; auto; congruence.
  - apply DONE.
    + now apply put_sorted.
    + intros k Hk. apply put_keys in Hk as [->|Hk]; auto. apply IN. now apply K.
    + intros t0 r0 Hin KP NR. rewrite put_get. destruct (t0 =? t) eqn:E; auto. apply Z.eqb_neq in E.
      apply in_app_iff in Hin as [Hin|[X|[]]]; [now apply (P _ r0)|]. injection X as <- <-. congruence.
    + intros t0 G. rewrite put_get in G. destruct (t0 =? t) eqn:E; [|apply OLD; auto; congruence]. apply Z.eqb_eq in E as ->.
      exists r. split; [rewrite in_app_iff; cbn; auto|]. split; auto. intros u r' Hu L.
      apply in_app_iff in Hu as [Hu|[X|[]]]; [|injection X as <- <-; lia].
      apply (in_map fst) in Hu. apply LT in Hu. cbn in Hu. lia.
  - destruct (r_start r <? cp s) eqn:E1.
    { apply STAY; [congruence|]. intros t0 G [_ X]. apply Z.ltb_lt in E1.
      assert (In t0 (keys (tsmap s))) by (apply get_keys; eauto). apply K in H. lia. }
    destruct (get (r_start r) (tsmap s)) eqn:G0; [|apply STAY; [congruence|]; intros t0 G [_ X]; congruence].
    apply DONE.
    + now apply del_sorted.
    + intros k0 Hk. apply del_keys in Hk as [Hk _]. apply IN. now apply K.
    + intros t0 r0 Hin KP NR. rewrite del_get. destruct (t0 =? r_start r) eqn:E.
      * apply Z.eqb_eq in E. exfalso. apply (NR t r Hr). split; auto.
      * apply in_app_iff in Hin as [Hin|[X|[]]]; [now apply (P _ r0)|]. injection X as <- <-. congruence.
    + intros t0 G. rewrite del_get in G. destruct (t0 =? r_start r) eqn:E; [discriminate|]. apply Z.eqb_neq in E.
      destruct (O _ G) as (r0 & Hin & KP & NR0). exists r0. split; [rewrite in_app_iff; auto|]. split; auto.
      intros u r' Hu. apply in_app_iff in Hu as [Hu|[X|[]]]; [eauto|]. injection X as <- <-. intros _ [_ X]. congruence.
  - destruct (r_start r <? cp s) eqn:E1.
    { apply STAY; [congruence|]. intros t0 G [_ X]. apply Z.ltb_lt in E1.
      assert (In t0 (keys (tsmap s))) by (apply get_keys; eauto). apply K in H. lia. }
    destruct (get (r_start r) (tsmap s)) eqn:G0; [|apply STAY; [congruence|]; intros t0 G [_ X]; congruence].
    apply DONE.
    + now apply del_sorted.
    + intros k0 Hk. apply del_keys in Hk as [Hk _]. apply IN. now apply K.
    + intros t0 r0 Hin KP NR. rewrite del_get. destruct (t0 =? r_start r) eqn:E.
      * apply Z.eqb_eq in E. exfalso. apply (NR t r Hr). split; auto.
      * apply in_app_iff in Hin as [Hin|[X|[]]]; [now apply (P _ r0)|]. injection X as <- <-. congruence.
    + intros t0 G. rewrite del_get in G. destruct (t0 =? r_start r) eqn:E; [discriminate|]. apply Z.eqb_neq in E.
      destruct (O _ G) as (r0 & Hin & KP & NR0). exists r0. split; [rewrite in_app_iff; auto|]. split; auto.
      intros u r' Hu. apply in_app_iff in Hu as [Hu|[X|[]]]; [eauto|]. injection X as <- <-. intros _ [_ X]. congruence.
Qed.

Lemma scan_all all base : sorted all -> (forall k, In k (keys all) -> 0 < k /\ saved base <= k) ->
  forall b a s, all = a ++ b -> scanned all a base s -> scanned all all base (fold_left update_map_scan b s).
Proof.
  intros Hs HK. induction b as [|[t r] b IH]; intros a s E Sc.
  - rewrite app_nil_r in E. subst a. exact Sc.
  - cbn [fold_left]. apply IH with (a := a ++ [(t, r)]); [now rewrite <- app_assoc|].
    apply scan_step with (b := b); auto.
    + apply HK. rewrite E, keys_app, in_app_iff. cbn. auto.
    + intros k Hk. now apply HK.
Qed.

Lemma restart_inv l s b : honest l -> inv l s -> 0 < saved s -> (forall t, pending l t -> saved s <= t) ->
  inv l (restart b s).
Proof.
  intros HL [R V So K C M Sa Old P O] S0 SAFE. unfold restart.
  destruct (0 <? saved s) eqn:E; [clear E|apply Z.ltb_ge in E; lia].
  set (s1 := St (rows s) (vals s) (saved s) (saved_old s) [] (-1) (saved s) (saved_old s)).
  set (all := filter (fun tr => saved s <=? fst tr) (rows s)).
  assert (Hall : sorted all) by (apply filter_sorted; rewrite R; apply rows_sorted).
  assert (Hin : forall t r, In (t, r) all <-> get t (rows_of l) = Some r /\ saved s <= t).
  { intros t r. unfold all. rewrite filter_In. cbn. rewrite R, Z.leb_le. split; intros [X Y]; split; auto.
    - apply in_get; auto. apply rows_sorted.
    - now apply get_in. }
  assert (HT : forall k, In k (keys all) -> is_ts l k /\ saved s <= k).
  { intros k Hk. apply in_map_iff in Hk as ([t r] & <- & Hk). apply Hin in Hk as [G L]. cbn. split; auto.
    apply rows_last in G as (l1 & o & l2 & -> & T & _). exists o. rewrite in_app_iff. cbn. auto. }
  assert (Sc : scanned all all s1 (fold_left update_map_scan all s1)).
  { apply scan_all with (a := []); auto.
    - intros k Hk. apply HT in Hk as [Hk L]. split; auto. now apply (is_ts_pos l).
    - constructor; cbn; auto; try easy. constructor. }
  destruct Sc as [R1 V1 Sa1 Old1 So1 K1 C1 M1 P1 O1].
  set (s2 := fold_left update_map_scan all s1) in *.
  assert (TS : saved s = -1 \/ is_ts l (saved s)) by exact Sa.
  assert (I2 : inv l s2).
  { constructor.
    - rewrite R1. exact R.
    - rewrite V1. exact V.
    - exact So1.
    - intros k Hk. destruct (K1 k Hk) as [L Hk']. split; auto. now apply HT.
    - destruct C1 as [->|C1]; [|now apply HT]. cbn. destruct TS; [lia|auto].
    - destruct M1; auto. right. now apply HT.
    - rewrite Sa1. exact Sa.
    - destruct Old1 as [-> ->]. cbn. destruct Old as (o0 & rest & A & _ & B). exists o0, rest. auto.
    - intros t Ht. destruct Ht as [(p & Hp & KP & TP) N].
      destruct (rows_there l p Hp) as [r G]. rewrite TP in G.
      pose proof (rows_last _ _ _ G) as (l1 & o & l2 & El & To & Er & _).
      assert (Ho : In o l) by (rewrite El, in_app_iff; cbn; auto).
      destruct (h_prewrite _ HL p o Hp Ho KP ltac:(congruence)) as [SO [[KO _]|KO]].
      + apply (P1 t r); [apply Hin; split; auto; apply SAFE; split; eauto|subst r; exact KO|].
        intros u r' Hu [RK RS]. apply Hin in Hu as [Gu _]. apply rows_last in Gu as (x1 & o' & x2 & Ex & To' & Er' & _).
        assert (Ho' : In o' l) by (rewrite Ex, in_app_iff; cbn; auto). subst r'. apply (N o' Ho'); auto.
      + exfalso. apply (N o Ho); auto. congruence.
    - intros t G. destruct (O1 t G) as (r & Hr & KP & NR). apply Hin in Hr as [Gr Lr].
      pose proof (rows_last _ _ _ Gr) as (l1 & p & l2 & El & Tp & Er & NT). subst r.
      exists l1, p, l2. repeat split; auto. intros o Ho [RK RS].
      assert (Hp : In p l) by (rewrite El, in_app_iff; cbn; auto).
      assert (HoL : In o l) by (rewrite El, in_app_iff; cbn; auto).
      pose proof (NT o Ho) as NTo.
      assert (LT : t < o_ts o).
      { destruct (h_after _ HL o HoL RK) as [HA|[_ HA]]; lia. }
      destruct (rows_there l o HoL) as [r' G'].
      pose proof (rows_last _ _ _ G') as (x1 & o' & x2 & Ex & To' & Er' & _).
      assert (Ho' : In o' l) by (rewrite Ex, in_app_iff; cbn; auto).
      apply (NR (o_ts o) r'); [apply Hin; split; auto; lia|lia|]. subst r'.
      destruct RK as [RK|RK].
      + destruct (h_commit _ HL o o' HoL Ho' RK) as [A B]; auto. split; [left; exact A|]. cbn. lia.
      + destruct (h_roll _ HL o o' HoL Ho' RK) as [A B]; auto; [lia|]. split; [right; exact A|]. cbn. lia. }
  assert (I3 : inv l (update_check_point b s2)) by now apply check_point_inv.
  destruct (v_old _ _ I3) as (o0 & rest & EL & EO & _). rewrite EO.
  replace (o_ts o0 <? 0) with false; auto. symmetry. apply Z.ltb_ge, Z.lt_le_incl, (h_pos _ HL). rewrite EL. cbn. auto.
Qed.

Lemma replica_inv l s : replica l s -> honest l -> l = [] \/ opened l -> (l = [] /\ s = st0) \/ inv l s.
Proof.
  induction 1 as [|l s o b Rp IH|l s b Rp IH S0 SAFE]; intros HL OP; auto.
  - right. destruct OP as [OP|OP]; [now destruct l|].
    pose proof (honest_prefix _ _ HL) as HP.
    assert (OP' : l = [] \/ opened l).
    { destruct l as [|x l]; auto. right. destruct OP as (f & l2 & E & KF). injection E as -> <-. exists f, l. auto. }
    destruct (IH HP OP') as [[-> ->]|I0].
    + destruct OP as (f & l2 & E & KF). cbn in E. injection E as -> <-.
      assert (F0 : 0 < o_ts f) by (apply (h_pos _ HL); cbn; auto).
      apply check_point_inv; auto.
      assert (TS : is_ts [f] (o_ts f)) by (exists f; cbn; auto).
      unfold update_map_apply. cbn. rewrite KF. cbn. constructor; cbn; auto.
      * unfold row_of. now rewrite KF.
      * unfold put_val. now rewrite KF.
      * repeat constructor.
      * intros k [<-|[]]. split; auto. lia.
      * right. rewrite Z.max_r by lia. exact TS.
      * exists f, []. auto.
      * intros t [(p & [<-|[]] & X & _) _]. congruence.
      * intros t. destruct (t =? o_ts f); discriminate.
    + unfold apply_op. apply check_point_inv; auto. now apply apply_map_inv.
  - destruct (IH HL OP) as [[-> ->]|I0]; [left; split; [auto|now destruct b]|].
    right. destruct S0 as [->|S0]; [|now apply restart_inv].
    destruct (v_cp _ _ I0) as (o & [] & _).
Qed.
