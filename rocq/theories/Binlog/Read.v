(* What a read of the change stream returns. *)
From Coq Require Import List ZArith Bool Lia Sorting.Sorted.
From Verif Require Import Binlog.Spec Binlog.Model Binlog.Maps Binlog.Honest Binlog.Inv.
Import ListNotations.
Open Scope Z_scope.

(* The rows a read from [b] up to [c] is to return. *)
Fixpoint sel (b c : Z) (l : list (Z * brow)) : list (Z * Z) :=
  match l with
  | [] => []
  | (t, r) :: rest =>
      if (b <? t) && (t <=? c)
      then match r_kind r with
           | Fake => (t, t) :: sel b c rest
           | Commit => (t, r_start r) :: sel b c rest
           | _ => sel b c rest
           end
      else sel b c rest
  end.

Lemma firstn_prefix {A} n (l x : list A) : exists y, l ++ x = firstn n l ++ y.
Proof. exists (skipn n l ++ x). now rewrite app_assoc, firstn_skipn. Qed.

Lemma finish_prefix v pend room out r x :
  finish v pend room out = Ok r -> exists y, out ++ map (entry v) pend ++ x = r ++ y.
Proof.
  unfold finish. destruct (have_all v pend); [|discriminate]. intros E. injection E as <-.
  destruct (firstn_prefix room (map (entry v) pend) x) as [y E]. exists y. rewrite <- app_assoc. now rewrite <- E.
Qed.

Lemma loop_prefix batch v old b c : forall l cnt room pend out r,
  (forall k, In k (keys l) -> b <= k) ->
  read_loop batch v old b c l cnt room pend out = Ok r ->
  exists y, out ++ map (entry v) pend ++ map (entry v) (sel b c l) = r ++ y.
Proof.
  induction l as [|[t x] rest IH]; intros cnt room pend out r Hk E; cbn [read_loop sel] in *.
  { now apply finish_prefix with (x := []) in E. }
  assert (Hk' : forall k, In k (keys rest) -> b <= k) by (intros k Hin; apply Hk; cbn; auto).
  assert (Ht : b <= t) by (apply Hk; cbn; auto).
  replace (t <? b) with false in E by (symmetry; apply Z.ltb_ge; lia). cbn [orb] in E.
  destruct (c <? t) eqn:EC.
  { apply finish_prefix with (x := map (entry v) (if (b <? t) && (t <=? c) then match r_kind x with
      | Fake => (t, t) :: sel b c rest | Commit => (t, r_start x) :: sel b c rest | _ => sel b c rest end
      else sel b c rest)) in E. exact E. }
  apply Z.ltb_ge in EC. replace (t <=? c) with true by (symmetry; now apply Z.leb_le). rewrite andb_true_r.
  assert (ADD : forall cs cnt', 
     (let pend' := pend ++ [cs] in
        if (length pend' <? batch)%nat then read_loop batch v old b c rest cnt' room pend' out
        else if have_all v pend' then
          let out' := out ++ firstn room (map (entry v) pend') in
          if (room <? length pend')%nat then Ok out'
          else read_loop batch v old b c rest cnt' (room - length pend') [] out'
        else Failed) = Ok r ->
     exists y, out ++ map (entry v) pend ++ map (entry v) (cs :: sel b c rest) = r ++ y).
  { intros cs cnt' EA. cbv zeta in EA.
    assert (Q : out ++ map (entry v) pend ++ map (entry v) (cs :: sel b c rest) =
                out ++ map (entry v) (pend ++ [cs]) ++ map (entry v) (sel b c rest)).
    { rewrite map_app, <- !app_assoc. reflexivity. }
    rewrite Q. clear Q. destruct (length (pend ++ [cs]) <? batch)%nat; [now apply IH in EA|].
    destruct (have_all v (pend ++ [cs])); [|discriminate].
    destruct (room <? length (pend ++ [cs]))%nat eqn:ER.
    - injection EA as <-. destruct (firstn_prefix room (map (entry v) (pend ++ [cs])) (map (entry v) (sel b c rest))) as [y E'].
      exists y. rewrite <- app_assoc. now rewrite <- E'.
    - apply IH in EA; auto. destruct EA as [y EA]. exists y. rewrite <- EA. cbn [map app]. rewrite <- app_assoc.
      apply Nat.ltb_ge in ER. rewrite firstn_all2; [reflexivity|]. now rewrite map_length. }
  destruct (r_kind x) eqn:KX.
  - destruct (b <? t); [now apply ADD in E|now apply IH in E].
  - apply IH in E; auto. destruct (b <? t); exact E.
  - destruct (t =? b) eqn:EB.
    + apply Z.eqb_eq in EB. replace (b <? t) with false by (symmetry; apply Z.ltb_ge; lia). now apply IH in E.
    + apply Z.eqb_neq in EB. replace (b <? t) with true by (symmetry; apply Z.ltb_lt; lia).
      destruct (r_start x <? old); [discriminate|]. destruct (cnt <? 0).
      * now apply finish_prefix with (x := map (entry v) ((t, r_start x) :: sel b c rest)) in E.
      * now apply ADD in E.
  - apply IH in E; auto. destruct (b <? t); exact E.
Qed.

Lemma sel_in b c l t u : In (t, u) (sel b c l) <->
  exists r, In (t, r) l /\ b < t <= c /\ (r_kind r = Fake /\ u = t \/ r_kind r = Commit /\ u = r_start r).
Proof.
  induction l as [|[k x] l IH]; cbn [sel]; [split; [easy|intros (r & [] & _)]|].
  assert (BACK : (exists r, In (t, r) l /\ b < t <= c /\ (r_kind r = Fake /\ u = t \/ r_kind r = Commit /\ u = r_start r)) ->
    exists r, In (t, r) ((k, x) :: l) /\ b < t <= c /\ (r_kind r = Fake /\ u = t \/ r_kind r = Commit /\ u = r_start r)).
  { intros (r & Hin & R). exists r. cbn. auto. }
  destruct ((b <? k) && (k <=? c)) eqn:E.
  - apply andb_true_iff in E as [E1 E2]. apply Z.ltb_lt in E1. apply Z.leb_le in E2.
    destruct (r_kind x) eqn:KX; cbn [In]; rewrite ?IH; split; auto; intros X.
    + destruct X as [X|X]; auto. injection X as <- <-. exists x. cbn. auto.
    + destruct X as (r & [X|Hin] & B & R); [|eauto]. injection X as <- <-. destruct R as [[_ ->]|[R _]]; [auto|congruence].
    + destruct X as (r & [X|Hin] & B & R); [|eauto]. injection X as <- <-. destruct R as [[R _]|[R _]]; congruence.
    + destruct X as [X|X]; auto. injection X as <- <-. exists x. cbn. auto.
    + destruct X as (r & [X|Hin] & B & R); [|eauto]. injection X as <- <-. destruct R as [[R _]|[_ ->]]; [congruence|auto].
    + destruct X as (r & [X|Hin] & B & R); [|eauto]. injection X as <- <-. destruct R as [[R _]|[R _]]; congruence.
  - rewrite IH. split; auto. intros (r & [X|Hin] & B & R); [|eauto]. injection X as <- <-.
    apply andb_false_iff in E as [E|E]; [apply Z.ltb_ge in E|apply Z.leb_gt in E]; lia.
Qed.

Lemma sel_keys b c l k : In k (map fst (sel b c l)) -> In k (keys l).
Proof.
  intros Hin. apply in_map_iff in Hin as ([t u] & <- & Hin). apply sel_in in Hin as (r & Hin & _).
  apply (in_map fst) in Hin. exact Hin.
Qed.

Lemma sel_sorted b c l : sorted l -> StronglySorted Z.lt (map fst (sel b c l)).
Proof.
  induction l as [|[k x] l IH]; intros Hs; [constructor|]. unfold sorted in Hs. cbn in Hs.
  apply StronglySorted_inv in Hs as [Hs F]. rewrite Forall_forall in F. specialize (IH Hs). cbn [sel].
  destruct ((b <? k) && (k <=? c)); auto.
  destruct (r_kind x); auto; cbn; constructor; auto; apply Forall_forall; intros z Hz; apply F; eapply sel_keys; eauto.
Qed.

(* The commits up to the check point are all there. *)
Lemma stable done more s o : honest (done ++ more) -> inv done s -> In o (done ++ more) -> o_kind o = Commit ->
  o_ts o <= cp s -> exists o', In o' done /\ o_kind o' = Commit /\ o_ts o' = o_ts o /\ o_start o' = o_start o.
Proof.
  intros HL I0 Hin KO LE. apply in_app_iff in Hin as [Hin|Hin]; [eauto|].
  apply in_split in Hin as (m1 & m2 & ->).
  destruct (h_order _ HL (done ++ m1) o m2) as [LT (p1 & p & p2 & E & KP & TP & B)]; auto.
  { now rewrite <- app_assoc. }
  apply app_eq_app in E as (x & [[E1 E2]|[E1 E2]]).
  - assert (IN : In p done \/ done = p1 /\ x = []).
    { destruct x as [|y x]; [right; rewrite app_nil_r in E1; auto|]. cbn in E2. injection E2 as <- ->.
      left. rewrite E1, in_app_iff. cbn. auto. }
    destruct IN as [IN|[-> _]].
    + destruct (v_cp _ _ I0) as (oc & Hoc & Toc).
      assert (DEC : (exists o', In o' done /\ (o_kind o' = Commit \/ o_kind o' = Rollback) /\ o_start o' = o_start o) \/
                    pending done (o_start o)).
      { assert (Q : forall d, (exists o', In o' d /\ (o_kind o' = Commit \/ o_kind o' = Rollback) /\ o_start o' = o_start o) \/
                    (forall o', In o' d -> (o_kind o' = Commit \/ o_kind o' = Rollback) -> o_start o' <> o_start o)).
        { induction d as [|y d IHd]; [right; easy|]. destruct IHd as [(o' & A & R)|N]; [left; exists o'; cbn; auto|].
          destruct (Z.eq_dec (o_start y) (o_start o)) as [ES|NS].
          - destruct (o_kind y) eqn:KY.
            + right. intros o' [<-|Ho'] [X|X]; try congruence; apply N; auto.
            + right. intros o' [<-|Ho'] [X|X]; try congruence; apply N; auto.
            + left. exists y. cbn. auto.
            + left. exists y. cbn. auto.
          - right. intros o' [<-|Ho']; auto. }
        destruct (Q done) as [X|N]; [left; exact X|right]. split; [exists p; auto|exact N]. }
      destruct DEC as [(o' & A & RK & RS)|PD].
      * destruct (h_decided _ HL o o') as [A1 A2]; auto; [rewrite in_app_iff; right; rewrite in_app_iff; cbn; auto|rewrite in_app_iff; auto|].
        exists o'. auto.
      * apply (v_pend _ _ I0) in PD. assert (K : In (o_start o) (keys (tsmap s))) by (apply get_keys; eauto).
        apply (v_keys _ _ I0) in K. lia.
    + destruct (v_cp _ _ I0) as (oc & Hoc & Toc). apply B in Hoc. lia.
  - destruct (v_cp _ _ I0) as (oc & Hoc & Toc). assert (o_ts oc < o_ts o); [|lia]. apply B. rewrite E1, in_app_iff. auto.
Qed.

Lemma sorted_increasing (r y : list (Z * option nat)) : StronglySorted Z.lt (map fst (r ++ y)) -> increasing r.
Proof.
  intros Hs r1 a b r2 ->. rewrite <- app_assoc in Hs. rewrite map_app in Hs. induction (map fst r1) as [|z zs IH]; cbn in Hs.
  - apply StronglySorted_inv in Hs as [_ F]. rewrite Forall_forall in F. apply F. cbn. auto.
  - apply StronglySorted_inv in Hs as [Hs _]. auto.
Qed.

Lemma last_ts_split r : forall d, r <> [] -> exists r0 a, r = r0 ++ [a] /\ last_ts d r = fst a.
Proof.
  induction r as [|x r IH]; intros d N; [congruence|]. destruct r as [|y r].
  - exists [], x. auto.
  - destruct (IH (fst x)) as (r0 & a & E & L); [discriminate|]. exists (x :: r0), a. cbn [last_ts] in *. rewrite E. auto.
Qed.

Lemma sorted_app_in (a b : list Z) x y : StronglySorted Z.lt (a ++ b) -> In x a -> In y b -> x < y.
Proof.
  induction a as [|z a IH]; [easy|]. cbn. intros Hs [->|Hx] Hy; apply StronglySorted_inv in Hs as [Hs F]; auto.
  rewrite Forall_forall in F. apply F. rewrite in_app_iff. auto.
Qed.

Lemma prefix_range r y d t x : StronglySorted Z.lt (map fst (r ++ y)) -> In (t, x) r -> t <= last_ts d r.
Proof.
  intros Hs Hin. destruct (last_ts_split r d) as (r0 & a & -> & ->); [now intros ->|].
  apply in_app_iff in Hin as [Hin|[->|[]]]; [|cbn; lia].
  rewrite <- app_assoc, map_app in Hs. apply Z.lt_le_incl. apply (sorted_app_in _ _ _ _ Hs); [|cbn; auto].
  apply (in_map fst) in Hin. exact Hin.
Qed.

Lemma prefix_has r y d e : StronglySorted Z.lt (map fst (r ++ y)) -> In e (r ++ y) -> d < fst e <= last_ts d r -> In e r.
Proof.
  intros Hs Hin [L1 L2]. apply in_app_iff in Hin as [Hin|Hin]; auto. exfalso.
  destruct r as [|a r']; [cbn in L2; lia|]. destruct (last_ts_split (a :: r') d) as (r0 & z & E & L); [discriminate|].
  rewrite L in L2. rewrite E in Hs. rewrite map_app in Hs.
  assert (fst z < fst e); [|lia]. apply (sorted_app_in _ _ _ _ Hs); [|now apply in_map].
  rewrite map_app, in_app_iff. cbn. auto.
Qed.

Lemma committed_val l o v : honest l -> In o l -> o_kind o = Commit -> get (o_start o) (vals_of l) = Some v ->
  committed l (o_ts o) v.
Proof.
  intros HL Ho K G. apply vals_some in G as (p & Hp & KP & TP & VP). exists o, p. auto 10.
Qed.

Lemma commit_prewrite l o : honest l -> In o l -> o_kind o = Commit ->
  exists p, In p l /\ o_kind p = Prewrite /\ o_ts p = o_start o /\ o_start o < o_ts o.
Proof.
  intros HL Ho K. apply in_split in Ho as (l1 & l2 & E).
  destruct (h_order _ HL _ _ _ E K) as [LT (p1 & p & p2 & E1 & KP & TP & _)]. exists p. repeat split; auto.
  rewrite E, E1, !in_app_iff. cbn. auto.
Qed.

Lemma read_complete done more s b cnt room batch r : honest (done ++ more) -> inv done s ->
  read_binlog s b cnt room batch = Ok r -> complete (done ++ more) b (last_ts b r) r.
Proof.
  intros HL I0. pose proof (honest_prefix _ _ HL) as HP. unfold read_binlog.
  destruct (cp s <? 0); [discriminate|]. destruct (oldest s <? 0); [discriminate|].
  destruct (b =? 0); [discriminate|]. destruct (b <? oldest s); [discriminate|].
  destruct (cp s <=? b) eqn:EC.
  { intros E. injection E as <-. cbn. constructor; try easy.
    - intros r1 x y r2 E. now destruct r1.
    - intros c v _ L. lia. }
  intros E. set (all := filter (fun tr => b <=? fst tr) (rows s)) in *.
  assert (Hk : forall k, In k (keys all) -> b <= k).
  { intros k Hin. apply in_map_iff in Hin as (x & <- & Hin). apply filter_In in Hin as [_ Hin]. now apply Z.leb_le. }
  apply loop_prefix in E; auto. destruct E as [y E]. cbn [map app] in E.
  set (v := vals s) in *.
  assert (Hs : StronglySorted Z.lt (map fst (r ++ y))).
  { rewrite <- E, map_map. change (fun x => fst (entry v x)) with (fun x : Z * Z => fst x).
    apply sel_sorted. apply filter_sorted. rewrite (v_rows _ _ I0). apply rows_sorted. }
  assert (SEL : forall t u, In (t, u) (sel b (cp s) all) ->
     exists o, In o done /\ o_ts o = t /\ b < t <= cp s /\ (o_kind o = Fake /\ u = t \/ o_kind o = Commit /\ u = o_start o)).
  { intros t u Hin. apply sel_in in Hin as (x & Hin & B & R). apply filter_In in Hin as [Hin _].
    rewrite (v_rows _ _ I0) in Hin. apply in_get in Hin; [|apply rows_sorted].
    apply rows_last in Hin as (l1 & o & l2 & -> & T & -> & _). exists o. rewrite in_app_iff. cbn. auto 10. }
  assert (OUT : forall t x, In (t, x) r -> exists o, In o done /\ o_ts o = t /\ b < t <= cp s /\
     (o_kind o = Fake /\ x = None \/ o_kind o = Commit /\ x <> None /\ x = get (o_start o) (vals_of done))).
  { intros t x Hin. assert (Hin' : In (t, x) (map (entry v) (sel b (cp s) all))) by (rewrite E, in_app_iff; auto).
    apply in_map_iff in Hin' as ([t' u] & Q & Hin'). unfold entry in Q. cbn in Q. injection Q as -> Q.
    destruct (SEL _ _ Hin') as (o & Ho & T & B & [[K ->]|[K ->]]); exists o; repeat (split; auto).
    - rewrite Z.eqb_refl in Q. auto.
    - right. split; auto. destruct (commit_prewrite _ _ HP Ho K) as (p & Hp & KP & TP & LT).
      replace (t =? o_start o) with false in Q by (symmetry; apply Z.eqb_neq; lia).
      unfold v in Q. rewrite (v_vals _ _ I0) in Q. split; auto.
      destruct (vals_there _ _ Hp KP) as [w G]. rewrite TP in G. rewrite G in Q. congruence. }
  constructor.
  - eapply sorted_increasing; eauto.
  - intros t x Hin. split; [|eapply prefix_range; eauto]. destruct (OUT _ _ Hin) as (_ & _ & _ & B & _). lia.
  - intros c w Hin. destruct (OUT _ _ Hin) as (o & Ho & T & B & [[_ X]|[K [_ X]]]); [discriminate|]. rewrite <- T.
    destruct (committed_val done o w) as (o1 & p1 & A1 & A2 & A3 & A4 & A5); auto.
    exists o1, p1. rewrite !in_app_iff. auto 10.
  - intros c w (o & p & Ho & K & T & Hp & KP & TP & VP) [L1 L2].
    assert (CP : c <= cp s).
    { destruct r as [|a r']; [cbn in L2; lia|]. destruct (last_ts_split (a :: r') b) as (r0 & z & E0 & L); [discriminate|].
      destruct z as [tz xz]. destruct (OUT tz xz) as (oz & _ & _ & B & _); [rewrite E0, in_app_iff; cbn; auto|].
      rewrite L in L2. cbn in L2. lia. }
    destruct (stable done more s o) as (o' & Ho' & K' & T' & S'); auto; [lia|].
    apply (prefix_has r y b); auto. rewrite <- E. apply in_map_iff. exists (c, o_start o).
    destruct (commit_prewrite _ _ HP Ho' K') as (p' & Hp' & KP' & TP' & LT). split.
    + unfold entry. cbn. replace (c =? o_start o) with false by (symmetry; apply Z.eqb_neq; lia).
      f_equal. unfold v. rewrite (v_vals _ _ I0). destruct (vals_there _ _ Hp' KP') as [w' G].
      rewrite TP', S' in G. rewrite G. f_equal. apply vals_some in G as (p2 & Hp2 & KP2 & TP2 & VP2).
      destruct (h_prewrite _ HL p p2) as [_ [[_ X]|X]]; auto; try congruence; try lia.
      rewrite in_app_iff. auto.
    + apply sel_in. destruct (rows_there _ _ Ho') as [x G].
      pose proof (rows_last _ _ _ G) as (l1 & o2 & l2 & El & T2 & E2 & _).
      assert (Ho2 : In o2 done) by (rewrite El, in_app_iff; cbn; auto).
      destruct (h_commit _ HP o' o2) as [A B]; auto.
      exists x. split.
      * apply filter_In. cbn. split; [|apply Z.leb_le; lia]. rewrite (v_rows _ _ I0). apply get_in.
        rewrite <- T, <- T'. exact G.
      * split; [lia|]. right. subst x. cbn. split; auto. congruence.
  - intros t Hin. destruct (OUT _ _ Hin) as (o & Ho & T & B & [[K _]|[_ [X _]]]); [|congruence].
    exists o. rewrite in_app_iff. auto.
Qed.

Lemma complete_app l lo mid hi r1 r2 : complete l lo mid r1 -> complete l mid hi r2 -> lo <= mid <= hi ->
  complete l lo hi (r1 ++ r2).
Proof.
  intros [A1 A2 A3 A4 A5] [B1 B2 B3 B4 B5] LE. constructor.
  - intros x a b z E. apply app_eq_app in E as (m & [[E1 E2]|[E1 E2]]).
    + destruct m as [|a0 [|b0 m]]; cbn in E2.
      * apply (B1 [] a b z). auto.
      * injection E2 as <- E2. destruct a as [ta xa], b as [tb xb]. cbn.
        assert (lo < ta <= mid) by (apply (A2 ta xa); rewrite E1, in_app_iff; cbn; auto).
        assert (mid < tb <= hi) by (apply (B2 tb xb); rewrite <- E2; cbn; auto). lia.
      * injection E2 as <- <- E2. apply (A1 x a b m). auto.
    + apply (B1 m a b z). auto.
  - intros t x Hin. apply in_app_iff in Hin as [Hin|Hin]; [apply A2 in Hin|apply B2 in Hin]; lia.
  - intros c v Hin. apply in_app_iff in Hin as [Hin|Hin]; auto.
  - intros c v Hc L. apply in_app_iff. destruct (Z_le_gt_dec c mid); [left; apply A4; auto; lia|right; apply B4; auto; lia].
  - intros t Hin. apply in_app_iff in Hin as [Hin|Hin]; auto.
Qed.

Lemma complete_le l lo r : complete l lo (last_ts lo r) r -> lo <= last_ts lo r.
Proof.
  intros C. destruct r as [|a r]; [cbn; lia|]. destruct (last_ts_split (a :: r) lo) as (r0 & [t x] & E & L); [discriminate|].
  destruct (in_range _ _ _ _ C t x) as [B _]; [rewrite E, in_app_iff; cbn; auto|]. rewrite L. cbn. lia.
Qed.

(* ---------- progress ---------- *)

Lemma loop_moves batch v old b c : forall l cnt room pend out,
  sorted l -> (forall k, In k (keys l) -> b <= k) ->
  (forall t r, In (t, r) l -> r_kind r = Commit -> b < t <= c -> old <= r_start r /\ get (r_start r) v <> None) ->
  have_all v pend = true ->
  out <> [] \/ ((1 <= room)%nat /\ (pend <> [] \/ (0 <= cnt /\ sel b c l <> []))) ->
  exists r, read_loop batch v old b c l cnt room pend out = Ok r /\ r <> [].
Proof.
  assert (FIN : forall room pend out, have_all v pend = true -> out <> [] \/ ((1 <= room)%nat /\ pend <> []) ->
     exists r, finish v pend room out = Ok r /\ r <> []).
  { intros room pend out HA N. unfold finish. rewrite HA. eexists. split; [reflexivity|].
    destruct N as [N|[R N]]; destruct out; try discriminate; try congruence.
    destruct room; [lia|]. destruct pend; [congruence|]. discriminate. }
  induction l as [|[t x] rest IH]; intros cnt room pend out Hs Hk HC HA N; cbn [read_loop sel] in *.
  { apply FIN; auto. destruct N as [N|[R [N|[_ N]]]]; auto; congruence. }
  assert (Hk' : forall k, In k (keys rest) -> b <= k) by (intros k Hin; apply Hk; cbn; auto).
  assert (Ht : b <= t) by (apply Hk; cbn; auto).
  unfold sorted in Hs. cbn in Hs. apply StronglySorted_inv in Hs as [Hs F]. rewrite Forall_forall in F.
  assert (HC' : forall t0 r, In (t0, r) rest -> r_kind r = Commit -> b < t0 <= c -> old <= r_start r /\ get (r_start r) v <> None).
  { intros t0 r Hin. apply HC. now right. }
  replace (t <? b) with false by (symmetry; apply Z.ltb_ge; lia). cbn [orb].
  destruct (c <? t) eqn:EC.
  { apply FIN; auto. destruct N as [N|[R [N|[_ N]]]]; auto. exfalso. apply N. apply Z.ltb_lt in EC.
    replace (t <=? c) with false by (symmetry; apply Z.leb_gt; lia). rewrite andb_false_r.
    destruct (sel b c rest) as [|[t0 u] z] eqn:ES; auto. exfalso.
    assert (Hin : In (t0, u) (sel b c rest)) by (rewrite ES; cbn; auto).
    pose proof Hin as Hin'. apply sel_in in Hin as (r & Hin & B & _). apply (in_map fst) in Hin. apply F in Hin. cbn in Hin. lia. }
  apply Z.ltb_ge in EC. replace (t <=? c) with true in N by (symmetry; now apply Z.leb_le). rewrite andb_true_r in N.
  assert (ADD : forall cs cnt', have_all v (pend ++ [cs]) = true -> out <> [] \/ (1 <= room)%nat ->
     exists r, (let pend' := pend ++ [cs] in
        if (length pend' <? batch)%nat then read_loop batch v old b c rest cnt' room pend' out
        else if have_all v pend' then
          let out' := out ++ firstn room (map (entry v) pend') in
          if (room <? length pend')%nat then Ok out'
          else read_loop batch v old b c rest cnt' (room - length pend') [] out'
        else Failed) = Ok r /\ r <> []).
  { intros cs cnt' HA' R. cbv zeta. destruct (length (pend ++ [cs]) <? batch)%nat.
    - apply IH; auto. destruct R; auto. right. split; auto. left. now destruct pend.
    - rewrite HA'.
      assert (NE : out ++ firstn room (map (entry v) (pend ++ [cs])) <> []).
      { destruct out; [|discriminate]. destruct R as [R|R]; [congruence|]. destruct room; [lia|]. now destruct pend. }
      destruct (room <? length (pend ++ [cs]))%nat; [eauto|]. apply IH; auto. }
  assert (R1 : out <> [] \/ (1 <= room)%nat) by tauto.
  assert (HAE : forall cs, (fst cs =? snd cs) || match get (snd cs) v with Some _ => true | None => false end = true ->
     have_all v (pend ++ [cs]) = true).
  { intros cs Hcs. unfold have_all in *. rewrite forallb_app. rewrite HA. cbn. now rewrite Hcs. }
  destruct (r_kind x) eqn:KX.
  - destruct (b <? t) eqn:EB.
    + apply ADD; auto. apply HAE. cbn. now rewrite Z.eqb_refl.
    + apply IH; auto.
  - apply IH; auto. destruct N as [N|[R [N|[A N]]]]; auto. right. split; auto. right. split; auto. now destruct (b <? t).
  - destruct (t =? b) eqn:EB.
    + apply Z.eqb_eq in EB. replace (b <? t) with false in N by (symmetry; apply Z.ltb_ge; lia). apply IH; auto.
    + apply Z.eqb_neq in EB. destruct (HC t x) as [O1 G1]; auto; [now left|lia|].
      replace (r_start x <? old) with false by (symmetry; apply Z.ltb_ge; lia).
      destruct (cnt <? 0) eqn:E0.
      * apply Z.ltb_lt in E0. apply FIN; auto. destruct N as [N|[R [N|[A N]]]]; auto. lia.
      * apply ADD; auto. apply HAE. cbn. destruct (get (r_start x) v); [apply orb_true_r|congruence].
  - apply IH; auto. destruct N as [N|[R [N|[A N]]]]; auto. right. split; auto. right. split; auto. now destruct (b <? t).
Qed.

Lemma no_open_drop m : (forall t, get t m <> Some Prewrite) -> sorted m -> drop_fakes m = [].
Proof.
  induction m as [|[k x] m IH]; intros N Hs; auto. cbn [drop_fakes].
  assert (R : drop_fakes m = []).
  { unfold sorted in Hs. cbn in Hs. apply StronglySorted_inv in Hs as [Hs F]. rewrite Forall_forall in F.
    apply IH; auto. intros t G. apply (N t). cbn. destruct (t =? k) eqn:E; auto. apply Z.eqb_eq in E as ->.
    assert (In k (keys m)) by (apply get_keys; eauto). apply F in H. lia. }
  destruct x; auto. exfalso. apply (N k). cbn. now rewrite Z.eqb_refl.
Qed.

Lemma heartbeat_catches_up l s t b : honest (l ++ [Op Fake t (-1) 0 0]) -> inv l s -> settled l ->
  (forall o, In o l -> o_ts o < t) -> cp (apply_op b s (Op Fake t (-1) 0 0)) = t.
Proof.
  intros HL I0 ST BIG. pose proof (honest_prefix _ _ HL) as HP.
  assert (NP : forall x, get x (tsmap s) <> Some Prewrite).
  { intros x G. destruct (v_open _ _ I0 _ G) as (l1 & p & l2 & E & KP & TP & N).
    destruct (ST _ _ _ E KP) as (o & Ho & RK & RS). apply (N o Ho). split; auto. congruence. }
  destruct (v_cp _ _ I0) as (oc & Hoc & Toc). pose proof (BIG oc Hoc) as L. pose proof (h_pos _ HP oc Hoc) as P0.
  unfold apply_op, update_map_apply. cbn [o_kind o_ts write_row cp tsmap max_ts rows vals saved saved_old oldest].
  replace (cp s =? -1) with false by (symmetry; apply Z.eqb_neq; lia).
  replace (t <=? cp s) with false by (symmetry; apply Z.leb_gt; lia).
  set (m := put t Fake (tsmap s)). unfold update_check_point, set_mem. cbn [cp tsmap max_ts].
  assert (Hm : sorted m) by (apply put_sorted, (v_sorted _ _ I0)).
  assert (D : drop_fakes m = []).
  { apply no_open_drop; auto. intros x. unfold m. rewrite put_get. destruct (x =? t); [discriminate|]. apply NP. }
  assert (FL : first_key m t <= t).
  { apply first_key_le; auto. unfold m. apply put_keys. auto. }
  assert (FP : 0 < first_key m t).
  { destruct (first_key_in m t) as [[-> _]|Hin]; [lia|]. apply put_keys in Hin as [->|Hin]; [lia|].
    apply (v_keys _ _ I0) in Hin as [_ (o & Ho & <-)]. now apply (h_pos _ HP). }
  replace (first_key m t =? -1) with false by (symmetry; apply Z.eqb_neq; lia).
  cbn [cp tsmap max_ts]. rewrite D. cbn [first_key].
  assert (MX : Z.max (max_ts s) t = t).
  { apply Z.max_r. destruct (v_max _ _ I0) as [->|(o & Ho & <-)]; [lia|]. apply BIG in Ho. lia. }
  rewrite MX. destruct (first_key m t <? t) eqn:E; auto. apply Z.ltb_ge in E. lia.
Qed.

Lemma read_moves done s b cnt room batch : honest done -> inv done s ->
  (forall o, In o done -> o_kind o = Commit -> oldest s <= o_start o) ->
  oldest s <= b -> 0 <= cnt -> (1 <= room)%nat -> 
  (exists o, In o done /\ o_kind o = Fake /\ b < o_ts o <= cp s) ->
  exists r, read_binlog s b cnt room batch = Ok r /\ r <> [].
Proof.
  intros HL I0 OLD Hb Hc Hr (f & Hf & KF & BF). unfold read_binlog.
  assert (O0 : 0 < oldest s).
  { destruct (v_old _ _ I0) as (o0 & rest & EL & -> & _). apply (h_pos _ HL). rewrite EL. cbn. auto. }
  pose proof (is_ts_pos _ _ HL (v_cp _ _ I0)) as C0.
  replace (cp s <? 0) with false by (symmetry; apply Z.ltb_ge; lia).
  replace (oldest s <? 0) with false by (symmetry; apply Z.ltb_ge; lia).
  replace (b =? 0) with false by (symmetry; apply Z.eqb_neq; lia).
  replace (b <? oldest s) with false by (symmetry; apply Z.ltb_ge; lia).
  replace (cp s <=? b) with false by (symmetry; apply Z.leb_gt; lia).
  set (all := filter (fun tr => b <=? fst tr) (rows s)).
  assert (ROW : forall t r, In (t, r) all -> exists o, In o done /\ o_ts o = t /\ r = row_of o).
  { intros t r Hin. apply filter_In in Hin as [Hin _]. rewrite (v_rows _ _ I0) in Hin. apply in_get in Hin; [|apply rows_sorted].
    apply rows_last in Hin as (l1 & o & l2 & -> & T & -> & _). exists o. rewrite in_app_iff. cbn. auto. }
  apply loop_moves; auto.
  - apply filter_sorted. rewrite (v_rows _ _ I0). apply rows_sorted.
  - intros k Hin. apply in_map_iff in Hin as (x & <- & Hin). apply filter_In in Hin as [_ Hin]. now apply Z.leb_le.
  - intros t r Hin K B. destruct (ROW _ _ Hin) as (o & Ho & T & ->). cbn in *. split; [auto|].
    destruct (commit_prewrite _ _ HL Ho K) as (p & Hp & KP & TP & _). rewrite (v_vals _ _ I0).
    destruct (vals_there _ _ Hp KP) as [w G]. rewrite TP in G. congruence.
  - right. split; auto. right. split; auto. intros E.
    destruct (rows_there _ _ Hf) as [x G]. pose proof (rows_last _ _ _ G) as (l1 & o2 & l2 & El & T2 & E2 & _).
    assert (In (o_ts f, o_ts f) (sel b (cp s) all)); [|rewrite E in H; easy].
    apply sel_in. exists x. split.
    + apply filter_In. cbn. split; [|apply Z.leb_le; lia]. rewrite (v_rows _ _ I0). now apply get_in.
    + split; auto. left. split; auto. subst x. cbn. apply (h_fake _ HL f o2); auto. rewrite El, in_app_iff. cbn. auto.
Qed.
