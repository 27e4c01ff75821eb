From Verif.Common Require Import Bytes KV.
From Verif.Route Require Import Model Spec Proofs ProofsUpd ProofsStep.
From Coq Require Import List ZArith Lia Bool Sorted.
Import ListNotations.
Local Open Scope Z_scope.

(* ---- by_start ---- *)
Definition by_fold (rs : list region) : @kv region :=
  fold_left (fun m r => if negb (isnil (r_start r)) && beqb (r_start r) (r_end r) then m else kput (r_start r) r m) rs [].
Lemma live_test r : negb (isnil (r_start r)) && beqb (r_start r) (r_end r) = false <-> live r.
Proof.
  unfold live. rewrite andb_false_iff, negb_false_iff, isnil_true, beqb_neq. tauto.
Qed.
Lemma kput_in {V} k (v : V) s e : ksorted s -> (In e (kput k v s) <-> e = (k, v) \/ (fst e <> k /\ In e s)).
Proof.
  intros S. destruct e as [j w]. rewrite <- (kget_in j w (kput k v s)) by (apply kput_sorted; auto).
  rewrite kget_put, <- (kget_in j w s) by auto. cbn. destruct (beqb j k) eqn:E.
  - apply beqb_eq in E. subst. split; [intros X; injection X as ->; auto|]. intros [X|[X _]]; congruence.
  - apply beqb_neq in E. split; [auto|]. intros [X|[_ X]]; auto. congruence.
Qed.
Lemma by_fold_snoc rs r : by_fold (rs ++ [r]) =
  if negb (isnil (r_start r)) && beqb (r_start r) (r_end r) then by_fold rs else kput (r_start r) r (by_fold rs).
Proof. unfold by_fold. rewrite fold_left_app. reflexivity. Qed.
Lemma by_fold_ok rs : ksorted (by_fold rs) /\
  (forall k r, In (k, r) (by_fold rs) -> In r rs /\ live r /\ k = r_start r) /\
  (forall r, In r rs -> live r -> exists x, In (r_start r, x) (by_fold rs)).
Proof.
  induction rs as [|r rs IH] using rev_ind.
  - split; [constructor|]. split; [intros k r []|intros r []].
  - rewrite by_fold_snoc. destruct IH as (S & A & B).
    set (m := by_fold rs) in *.
    destruct (negb (isnil (r_start r)) && beqb (r_start r) (r_end r)) eqn:E.
    + split; auto. split.
      * intros k x I. destruct (A k x I) as (? & ? & ?). rewrite in_app_iff. auto.
      * intros x I L. apply in_app_or in I. destruct I as [I|[<-|[]]]; auto. apply live_test in L. congruence.
    + apply live_test in E. split; [apply kput_sorted; auto|]. split.
      * intros k x I. apply kput_in in I; auto. destruct I as [I|[_ I]].
        -- injection I as -> ->. rewrite in_app_iff. cbn. auto.
        -- destruct (A k x I) as (? & ? & ?). rewrite in_app_iff. auto.
      * intros x I L. destruct (list_eq_dec Z.eq_dec (r_start x) (r_start r)) as [EQ|NE].
        -- exists r. apply kput_in; auto. left. rewrite EQ. auto.
        -- apply in_app_or in I. destruct I as [I|[<-|[]]]; [|congruence]. destruct (B x I L) as (y & Y). exists y.
           apply kput_in; auto.
Qed.
Lemma by_start_in rs r : In r (by_start rs) -> In r rs /\ live r.
Proof.
  unfold by_start. fold (by_fold rs). intros I. apply in_map_iff in I. destruct I as ([k x] & <- & I).
  apply by_fold_ok in I. tauto.
Qed.
Lemma by_start_sorted rs : StronglySorted (fun a b => below (r_start a) (r_start b)) (by_start rs).
Proof.
  unfold by_start. fold (by_fold rs). destruct (by_fold_ok rs) as (S & A & _). unfold ksorted in S.
  assert (X : forall m : @kv region, StronglySorted klt m -> (forall k r, In (k, r) m -> k = r_start r) ->
            StronglySorted (fun a b => below (r_start a) (r_start b)) (map snd m)).
  { clear. induction 1 as [|[k r] m S IH F]; intros E; cbn; constructor.
    - apply IH. intros k' r' I. apply E. right; auto.
    - rewrite Forall_forall in *. intros b I. apply in_map_iff in I. destruct I as ([k' b'] & <- & I). cbn.
      specialize (F _ I). unfold klt in F. cbn in F. rewrite <- (E k r), <- (E k' b'); auto; [right; auto|left; auto]. }
  apply X; auto. intros k r I. apply A in I. tauto.
Qed.
Lemma by_start_set s L e rs : tile s L e -> (forall r, In r rs <-> In r L) -> by_start rs = L.
Proof.
  intros T E. unfold by_start. fold (by_fold rs). destruct (by_fold_ok rs) as (S & A & B).
  assert (X : by_fold rs = map (fun r => (r_start r, r)) L).
  { apply ksorted_ext; auto.
    - unfold ksorted. eapply StronglySorted_map; [|eapply tile_sorted; exact T]. intros a b (_ & _ & X). exact X.
    - assert (LV : forall r, In r L -> live r).
      { intros r I. pose proof (tile_forall_start _ _ _ T) as F. rewrite Forall_forall in F. destruct (F _ I) as [_ F1].
        unfold live. destruct (list_eq_dec Z.eq_dec (r_start r) []); auto. right. intros EQ. rewrite <- EQ in F1.
        destruct F1 as [F1|F1]; [congruence|]. eapply below_irrefl; eauto. }
      intros [k r]. split; intros I.
      + destruct (A k r I) as (I1 & _ & ->). apply in_map_iff. exists r. split; auto. apply E. auto.
      + apply in_map_iff in I. destruct I as (x & EQ & I). injection EQ as <- <-.
        destruct (B x) as (y & Y); [apply E; auto|auto|]. destruct (A _ _ Y) as (Y1 & _ & Y3).
        assert (x = y) by (eapply ent_start_inj; [exact T|auto|apply E; auto|auto]). subst y. exact Y. }
  rewrite X, map_map. apply map_id.
Qed.

(* ---- any heartbeat ---- *)
Lemma loop_inv t0 rs0 (strict : Prop) :
  (strict -> no_others t0 rs0) ->
  forall todo done u rs,
  inv rs0 strict done todo u rs ->
  Forall sane todo -> NoDup (map r_id todo) ->
  (strict -> forall d r, In r todo -> In d done -> r_end d <> [] /\ upto (r_end d) (r_start r) /\ r_start d <> r_start r) ->
  (strict -> StronglySorted (fun a b => r_end a <> [] /\ upto (r_end a) (r_start b) /\ r_start a <> r_start b) todo) ->
  (strict -> forall r o, In r todo -> In o rs0 -> r_start o = r_start r ->
     exists o', t_infos t0 (r_id r) = Some o' /\ upto (r_start r) (r_start o')) ->
  exists rs', inv rs0 strict (done ++ todo) [] (fold_left update_step todo u) rs'.
Proof.
  intros NO. induction todo as [|r todo IH]; intros done u rs IV SA ND DD SS HH; cbn [fold_left].
  - rewrite app_nil_r. eauto.
  - inversion SA; inversion ND; subst.
    destruct (inv_step t0 rs0 strict NO done r todo u rs IV) as (rs1 & IV1); auto.
    + intros x I E. apply H5. rewrite <- E. apply in_map. auto.
    + intros ST d D. apply DD; auto. left; auto.
    + intros ST o O. apply HH; auto. left; auto.
    + replace (done ++ r :: todo) with ((done ++ [r]) ++ todo) by (rewrite <- app_assoc; auto).
      apply (IH _ _ rs1); auto.
      * intros ST d x I D. apply in_app_or in D. destruct D as [D|[<-|[]]]; [apply DD; auto; right; auto|].
        specialize (SS ST). apply StronglySorted_inv in SS. destruct SS as [_ SS]. rewrite Forall_forall in SS. auto.
      * intros ST. specialize (SS ST). inversion SS; auto.
      * intros ST x o I. apply HH; auto. right; auto.
Qed.

Lemma update_regions_inv t rs batch (strict : Prop) :
  good t rs -> fits t batch -> (forall i r, t_infos t i = Some r -> r_id r = i /\ In r rs) ->
  (strict -> of_one_state t rs batch) ->
  exists rs', good (update_regions t batch) rs' /\ (strict -> no_others (update_regions t batch) rs').
Proof.
  intros G (F1 & F2 & F3) NO OS. unfold update_regions.
  assert (SUB : forall r, In r (by_start batch) -> In r batch /\ live r) by apply by_start_in.
  edestruct (loop_inv t rs strict (fun _ => NO) (by_start batch) [] {| u_tab := t; u_last := []; u_clear := []; u_end := [] |} rs) as (rs' & [J1 J2 J3 J4]).
  - constructor; cbn; auto.
    + intros r o I E. destruct (NO _ _ E). split; auto. split; auto. intros V. apply F3; auto. apply SUB; auto.
  - rewrite Forall_forall. intros r I. destruct (SUB _ I) as [I1 I2]. destruct (F1 _ I1) as (? & ? & ?). split; auto.
  - pose proof (by_start_sorted batch) as S. clear - S SUB F2.
    assert (X : forall l, StronglySorted (fun a b => below (r_start a) (r_start b)) l -> (forall r, In r l -> In r batch) -> NoDup (map r_id l)).
    { induction 1 as [|a l S' IH F]; intros E; cbn; constructor.
      - intros I. apply in_map_iff in I. destruct I as (b & EQ & I). rewrite Forall_forall in F. specialize (F _ I).
        assert (a = b) by (apply F2; auto; [apply E; left; auto|apply E; right; auto]). subst. eapply below_irrefl; eauto.
      - apply IH. intros r I. apply E. right; auto. }
    apply X; auto. intros r I. apply SUB; auto.
  - intros _ d r _ [].
  - intros ST. destruct (OS ST) as [O1 _]. pose proof (by_start_sorted batch) as S.
    assert (X : forall l, StronglySorted (fun a b => below (r_start a) (r_start b)) l -> (forall r, In r l -> In r (by_start batch)) ->
       StronglySorted (fun a b => r_end a <> [] /\ upto (r_end a) (r_start b) /\ r_start a <> r_start b) l).
    { induction 1 as [|a l S' IH F]; intros E; constructor.
      - apply IH. intros r I. apply E. right; auto.
      - rewrite Forall_forall in *. intros b I. specialize (F _ I).
        destruct (SUB a (E _ (or_introl eq_refl))), (SUB b (E _ (or_intror I))).
        destruct (O1 a b) as [? ?]; auto. split; auto. split; auto. intros EQ. rewrite EQ in F. eapply below_irrefl; eauto. }
    apply X; auto.
  - intros ST r o I Io E. destruct (OS ST) as [_ O2]. destruct (SUB _ I). eapply O2; eauto.
  - exists rs'. split; [exact J1|]. intros ST. apply J4. auto.
Qed.

(* ---- what the table learns ---- *)
Lemma split_unique {A} (P : A -> bool) a b c d :
  a ++ b = c ++ d -> Forall (fun x => P x = true) a -> Forall (fun x => P x = true) c ->
  (forall x b', b = x :: b' -> P x = false) -> (forall x d', d = x :: d' -> P x = false) -> a = c /\ b = d.
Proof.
  revert c. induction a as [|x a IH]; intros [|y c] E Fa Fc Hb Hd; cbn in E; auto.
  - subst b. specialize (Hb _ _ eq_refl). inversion Fc; subst. congruence.
  - subst d. specialize (Hd _ _ eq_refl). inversion Fa; subst. congruence.
  - injection E as -> E. inversion Fa; inversion Fc; subst. destruct (IH c E) as [-> ->]; auto.
Qed.
Lemma app_uniq {A} (o : A) l1 l2 l1' l2' : NoDup (l1 ++ o :: l2) -> l1 ++ o :: l2 = l1' ++ o :: l2' -> l1 = l1'.
Proof.
  revert l1'. induction l1 as [|x l1 IH]; intros [|y l1'] N E; cbn in *; auto.
  - injection E as -> E. inversion N; subst. exfalso. apply H1. rewrite in_app_iff. cbn. auto.
  - injection E as -> E. inversion N; subst. exfalso. apply H1. rewrite in_app_iff. cbn. auto.
  - injection E as -> E. inversion N; subst. f_equal. apply IH; auto.
Qed.
Lemma NoDup_map_rev {A B} (f : A -> B) l : NoDup (map f l) -> NoDup l.
Proof. induction l; cbn; intros N; constructor; inversion N; subst; auto. intros I. apply H1. apply in_map. auto. Qed.
Lemma NoDup_app_r' {A} (a b : list A) : NoDup (a ++ b) -> NoDup b.
Proof. induction a; cbn; auto. intros N. inversion N; auto. Qed.

Lemma get_clear_exact t A M1 o B ns e :
  good t (A ++ (M1 ++ [o]) ++ B) -> M1 <> [] -> ns <> [] -> tile ns (M1 ++ [o]) e ->
  get_clear_regions t ns (r_start o) = map ent (M1 ++ [o]).
Proof.
  intros G NM NN TM. set (rs := A ++ (M1 ++ [o]) ++ B) in *.
  assert (Io : In o rs) by (unfold rs; rewrite !in_app_iff; cbn; auto).
  pose proof (good_tile _ _ G) as T. pose proof (good_sorted _ _ G) as SO.
  destruct M1 as [|h M1]; [congruence|]. cbn [app] in TM. pose proof (tile_head_eq _ _ _ _ TM) as Eh.
  assert (LT : below ns (r_start o)).
  { apply tile_sorted in TM. inversion TM; subst. rewrite Forall_forall in H2. apply (H2 o). rewrite in_app_iff; cbn; auto. }
  unfold get_clear_regions, lower_bound. rewrite (good_keys _ _ G).
  destruct (skip_while_spec (fun x => bltb x ns) [] (map ent rs)) as (X & Y & E & S & FA & FB). rewrite S.
  assert (SPL : X = map ent A /\ Y = map ent (((h :: M1) ++ [o]) ++ B)).
  { apply (split_unique (fun e => bltb (fst e) ns)); auto.
    - rewrite <- E. unfold rs. rewrite map_app. auto.
    - rewrite Forall_forall. intros e0 I. apply in_map_iff in I. destruct I as (a & <- & I). cbn. apply bltb_below.
      unfold rs in SO. apply sorted_app_all in SO. destruct SO as (_ & _ & SO).
      destruct (SO a h I (or_introl eq_refl)) as (_ & _ & L). rewrite Eh in L. auto.
    - intros x d' EQ. cbn in EQ. injection EQ as <- _. cbn. apply bltb_false. left. auto. }
  destruct SPL as [-> ->]. cbn [app map]. unfold ent at 1. rewrite Eh, beqb_refl.
  assert (T2 : tile ns (((h :: M1) ++ [o]) ++ B) []).
  { unfold rs in T. destruct A as [|x A].
    - cbn [app] in *. pose proof (tile_head_eq _ _ _ _ T). congruence.
    - apply tile_app in T; try (cbn; congruence). destruct T as (m & _ & _ & T). cbn [app] in *. pose proof (tile_head_eq _ _ _ _ T). congruence. }
  assert (F : Forall (fun r => t_infos t (r_id r) = Some r) (((h :: M1) ++ [o]) ++ B)).
  { destruct G as [_ [_ F]]. unfold rs in F. apply Forall_app in F. tauto. }
  assert (I2 : In o (((h :: M1) ++ [o]) ++ B)) by (rewrite !in_app_iff; cbn; auto).
  destruct (collect_clear_ok t o _ ns [] NN T2 F I2 LT (Forall_nil _)) as (l1 & l2 & E1 & N1 & E2).
  assert (l1 = h :: M1).
  { symmetry. apply (app_uniq o (h :: M1) B l1 l2).
    - destruct G as [[_ ND] _]. apply NoDup_map_rev in ND. unfold rs in ND. apply NoDup_app_r' in ND. rewrite <- app_assoc in ND. exact ND.
    - rewrite <- E1, <- app_assoc. reflexivity. }
  subst l1. cbn [app map] in E2. unfold ent at 1 in E2. rewrite Eh in E2. etransitivity; [exact E2|].
  unfold ent at 1 3. rewrite ?Eh. reflexivity.
Qed.

(* a pending group is completed by the regions that follow *)
Lemma finish_group t cs ek news : forall last,
  last <> [] ->
  (last_end last) <> [] -> tile (last_end last) news ek ->
  Forall (fun r => t_infos t (r_id r) = None) news ->
  fold_left update_step news {| u_tab := t; u_last := last; u_clear := cs; u_end := ek |} =
  {| u_tab := fold_left update_region (last ++ news) (clear_region t cs); u_last := []; u_clear := []; u_end := ek |}.
Proof.
  induction news as [|r news IH]; intros last NL NE T FN; [destruct T|].
  inversion FN; subst. pose proof (tile_head_eq _ _ _ _ T) as ES.
  assert (ST : update_step {| u_tab := t; u_last := last; u_clear := cs; u_end := ek |} r =
    if beqb (r_end r) ek then {| u_tab := fold_left update_region (last ++ [r]) (clear_region t cs); u_last := []; u_clear := []; u_end := ek |}
    else match end_key_compare (r_end r) ek with Gt => {| u_tab := t; u_last := []; u_clear := []; u_end := ek |}
         | _ => {| u_tab := t; u_last := last ++ [r]; u_clear := cs; u_end := ek |} end).
  { unfold update_step. cbn [u_tab u_last u_clear u_end]. rewrite H1. destruct last as [|l0 last]; [congruence|].
    rewrite ES, beqb_refl. cbn [negb]. unfold drop_pending. cbn [u_end]. reflexivity. }
  cbn [fold_left]. rewrite ST. destruct news as [|r' news].
  - cbn in T. destruct T as (_ & _ & EE). rewrite EE, beqb_refl. reflexivity.
  - apply tile_cons in T. destruct T as (_ & B & NR & T).
    pose proof (tile_ends _ _ _ T) as BE.
    assert (NEQ : r_end r <> ek) by (intros EQ; rewrite EQ in BE; destruct BE as [BE|BE]; [congruence|eapply below_irrefl; eauto]).
    pose proof NEQ as NEQ'. apply beqb_neq in NEQ. rewrite NEQ.
    assert (EC : end_key_compare (r_end r) ek = Lt) by (apply ekc_lt; auto). rewrite EC.
    rewrite IH; auto.
    + rewrite <- app_assoc. reflexivity.
    + destruct last; discriminate.
    + rewrite last_end_app. auto.
    + rewrite last_end_app. auto.
Qed.

Lemma learn t A M1 o B s e r0 news batch :
  good t (A ++ (M1 ++ [o]) ++ B) -> tile s (M1 ++ [o]) e -> tile s (r0 :: news) e ->
  r_id r0 = r_id o -> r_ver o < r_ver r0 -> M1 = [] \/ s <> [] ->
  Forall (fun r => r_deleted r = false /\ 0 <= r_ver r) (r0 :: news) -> NoDup (map r_id (r0 :: news)) ->
  Forall (fun r => t_infos t (r_id r) = None) news ->
  (forall r, In r batch <-> In r (r0 :: news)) ->
  good (update_regions t batch) (A ++ (r0 :: news) ++ B).
Proof.
  intros G TM TL EI VL HS FS ND FN EB. unfold update_regions. rewrite (by_start_set _ _ _ _ TL EB).
  assert (SA : Forall sane (r0 :: news)).
  { pose proof (tile_forall_start _ _ _ TL) as F. rewrite Forall_forall in *. intros r I. destruct (FS _ I), (F _ I). split; auto. }
  assert (Io : In o (A ++ (M1 ++ [o]) ++ B)) by (rewrite !in_app_iff; cbn; auto).
  pose proof (good_infos _ _ _ G Io) as EO. rewrite <- EI in EO.
  pose proof (tile_last_eq _ _ _ _ TM) as EE. pose proof (tile_head_eq _ _ _ _ TL) as ES.
  pose proof (Forall_inv SA) as (SA1 & SA2 & SA3).
  set (cs := match M1 with [] => [] | _ => map ent (M1 ++ [o]) end).
  assert (GO : group_ok t (M1 ++ [o]) (r0 :: news) cs).
  { exists o, r0, news. split; auto. split; [rewrite in_app_iff; cbn; auto|]. split; auto. split; [lia|].
    split; auto. split; auto. split; auto. unfold cs. destruct M1 as [|h M1]; auto. right. cbn in TM. cbn. repeat split; auto.
    destruct TM as [TM _]. congruence. }
  pose proof (commit_good _ _ _ _ _ _ _ _ G TM TL GO) as CG.
  assert (CLR : M1 <> [] -> get_clear_regions t (r_start r0) (r_start o) = map ent (M1 ++ [o])).
  { intros NM. destruct HS as [HS|HS]; [congruence|]. rewrite ES. eapply get_clear_exact; eauto. }
  assert (LEN : M1 <> [] -> (length (get_clear_regions t (r_start r0) (r_start o)) <? 2)%nat = false).
  { intros NM. apply Nat.ltb_ge. rewrite CLR by auto. rewrite map_length, app_length. cbn. destruct M1; [congruence|cbn; lia]. }
  assert (LT : M1 <> [] -> bltb (r_start r0) (r_start o) = true).
  { intros NM. apply bltb_below. destruct M1 as [|h M1]; [congruence|]. cbn [app] in TM. pose proof (tile_head_eq _ _ _ _ TM) as Eh.
    pose proof (tile_sorted _ _ _ TM) as SO. rewrite ES, <- Eh. inversion SO as [|? ? ? SO2]. rewrite Forall_forall in SO2. apply (SO2 o). rewrite in_app_iff; cbn; auto. }
  assert (EQ : M1 = [] -> r_start r0 = r_start o).
  { intros ->. cbn in TM. destruct TM as [TM _]. congruence. }
  assert (V : (r_ver o <? r_ver r0) = true) by (apply Z.ltb_lt; auto).
  destruct news as [|r1 news].
  - (* one region: a merge or a new version *)
    assert (E0 : r_end r0 = r_end o) by (cbn in TL; destruct TL as (_ & _ & TL); congruence).
    cbn [fold_left]. unfold update_step. cbn [u_tab u_last u_clear u_end drop_pending]. rewrite EO, V.
    rewrite E0, ekc_refl. cbn [fold_left] in CG.
    destruct M1 as [|h M1].
    + rewrite EQ by auto. replace (bltb (r_start o) (r_start o)) with false by (symmetry; apply bltb_false, upto_refl).
      rewrite beqb_refl. cbn [u_tab drop_pending]. exact CG.
    + rewrite LT by congruence. rewrite LEN by congruence. cbn [u_tab]. rewrite CLR by congruence. exact CG.
  - apply tile_cons in TL. destruct TL as (_ & _ & N0 & TL).
    assert (EC : end_key_compare (r_end r0) (r_end o) = Lt).
    { apply ekc_lt. pose proof (tile_ends _ _ _ TL) as BE. rewrite EE. split; auto. split; auto.
      intros X. rewrite X in BE. destruct BE as [BE|BE]; [congruence|eapply below_irrefl; eauto]. }
    assert (ST : update_step {| u_tab := t; u_last := []; u_clear := []; u_end := [] |} r0 =
                 {| u_tab := t; u_last := [r0]; u_clear := cs; u_end := r_end o |}).
    { unfold update_step. cbn [u_tab u_last u_clear u_end drop_pending]. rewrite EO, V, EC. unfold cs.
      destruct M1 as [|h M1].
      + rewrite EQ by auto. replace (bltb (r_start o) (r_start o)) with false by (symmetry; apply bltb_false, upto_refl).
        rewrite beqb_refl. reflexivity.
      + rewrite LT by congruence. rewrite LEN by congruence. rewrite CLR by congruence. reflexivity. }
    cbn [fold_left] in *. rewrite ST.
    change (fold_left update_step news (update_step {| u_tab := t; u_last := [r0]; u_clear := cs; u_end := r_end o |} r1))
      with (fold_left update_step (r1 :: news) {| u_tab := t; u_last := [r0]; u_clear := cs; u_end := r_end o |}).
    rewrite finish_group; auto; try congruence.
    unfold last_end. cbn. rewrite EE. auto.
Qed.

(* ---- the first load ---- *)
Lemma skip_all p before (l : @kv Z) : Forall (fun e => p (fst e) = true) l -> skip_while p before l = (rev l ++ before, []).
Proof.
  revert before. induction l as [|[k v] l IH]; intros before F; cbn; auto. inversion F; subst. cbn in H1. rewrite H1, IH by auto.
  rewrite <- app_assoc. reflexivity.
Qed.
Lemma load_from todo : forall P t,
  tile [] (P ++ todo) [] -> NoDup (map r_id (P ++ todo)) ->
  Forall (fun r => r_deleted r = false /\ 0 <= r_ver r) todo ->
  t_keys t = map ent P -> Forall (fun r => t_infos t (r_id r) = Some r) P -> (forall i r, t_infos t i = Some r -> r_id r = i /\ In r P) ->
  let t' := u_tab (fold_left update_step todo {| u_tab := t; u_last := []; u_clear := []; u_end := [] |}) in
  good t' (P ++ todo) /\ no_others t' (P ++ todo).
Proof.
  induction todo as [|r todo IH]; intros P t T ND FS K FI NO; cbn [fold_left].
  - rewrite app_nil_r in *. split; [split; split; auto|]. exact NO.
  - assert (UNK : t_infos t (r_id r) = None).
    { destruct (t_infos t (r_id r)) as [o|] eqn:E; auto. exfalso. destruct (NO _ _ E) as [E1 E2].
      rewrite map_app in ND. cbn in ND. apply NoDup_remove_2 in ND. apply ND. rewrite in_app_iff. left. rewrite <- E1. apply in_map. auto. }
    assert (SRT : Forall (fun e => below (fst e) (r_start r)) (map ent P)).
    { pose proof (tile_sorted _ _ _ T) as SO. apply sorted_app_all in SO. destruct SO as (_ & _ & SO).
      rewrite Forall_forall. intros e I. apply in_map_iff in I. destruct I as (a & <- & I). cbn. apply (SO a r); auto. left; auto. }
    assert (SA : sane r).
    { pose proof (tile_forall_start _ _ _ T) as F. rewrite Forall_forall in F. destruct (F r); [rewrite in_app_iff; cbn; auto|].
      apply Forall_inv in FS. destruct FS. split; auto. }
    set (t1 := {| t_keys := map ent (P ++ [r]); t_infos := set_info (t_infos t) (r_id r) (Some r) |}).
    assert (UP : update_region t r = t1).
    { rewrite update_region_eq; auto; [|unfold newer; rewrite UNK; auto]. unfold t1. f_equal. rewrite K. unfold map_insert.
      replace (kget (r_start r) (map ent P)) with (@None Z).
      - rewrite kput_last by auto. rewrite map_app. reflexivity.
      - symmetry. destruct (kget (r_start r) (map ent P)) eqn:E; auto. exfalso.
        assert (S : ksorted (map ent P)).
        { destruct P as [|p P]; [constructor|]. apply tile_app in T; try congruence. destruct T as (m & _ & T & _). eapply tile_ksorted; exact T. }
        apply kget_in in E; auto. rewrite Forall_forall in SRT. apply SRT in E. eapply below_irrefl; eauto. }
    assert (ST : update_step {| u_tab := t; u_last := []; u_clear := []; u_end := [] |} r = {| u_tab := t1; u_last := []; u_clear := []; u_end := [] |}).
    { unfold update_step. cbn [u_tab u_last u_clear u_end]. rewrite UNK. unfold lower_bound. rewrite K.
      rewrite skip_all by (eapply Forall_impl; [|exact SRT]; intros e L; apply bltb_below; exact L). rewrite app_nil_r.
      destruct P as [|x P] using rev_ind; [cbn; rewrite UP; reflexivity|]. clear IHP.
      rewrite map_app, rev_app_distr. cbn [map rev app]. unfold ent at 1.
      apply Forall_app in FI. destruct FI as [_ FI]. apply Forall_inv in FI. rewrite FI.
      assert (EE : r_end x = r_start r).
      { apply tile_app in T; [|destruct P; discriminate|congruence]. destruct T as (m & _ & T1 & T2).
        apply tile_last_eq in T1. apply tile_head_eq in T2. congruence. }
      rewrite EE, ekc_refl, UP. reflexivity. }
    rewrite ST. replace (P ++ r :: todo) with ((P ++ [r]) ++ todo) in * by (rewrite <- app_assoc; reflexivity).
    apply IH; auto.
    + inversion FS; auto.
    + apply Forall_app. split.
      * rewrite Forall_forall in *. intros a I. cbn. unfold set_info. destruct (Z.eqb_spec (r_id a) (r_id r)) as [E|]; auto.
        specialize (FI _ I). rewrite E in FI. congruence.
      * repeat constructor. cbn. unfold set_info. rewrite Z.eqb_refl. auto.
    + intros i x. cbn. unfold set_info. rewrite in_app_iff. destruct (Z.eqb_spec i (r_id r)) as [->|N].
      * intros E. injection E as <-. cbn. auto.
      * intros E. destruct (NO _ _ E). auto.
Qed.
Lemma load rs batch :
  complete rs -> Forall (fun r => r_deleted r = false /\ 0 <= r_ver r) rs -> (forall r, In r batch <-> In r rs) ->
  good (update_regions empty_table batch) rs /\ no_others (update_regions empty_table batch) rs.
Proof.
  intros [T ND] FS E. unfold update_regions. rewrite (by_start_set _ _ _ _ T E).
  apply (load_from rs [] empty_table); auto. cbn. discriminate.
Qed.
