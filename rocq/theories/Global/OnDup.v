(* INSERT .. ON DUPLICATE KEY UPDATE *)
From Verif.Dml Require Import Base Inv Rows Update.
From Verif.Global Require Import Model Spec Core Batch Stmts Ignore Replace UpdDel.
Local Open Scope Z_scope.

Lemma set_nth_In l i r x : In x (set_nth l i r) -> x = r \/ In x l.
Proof.
  revert i. induction l as [|h t IH]; intros [|i]; cbn [set_nth In]; auto.
  - intros [<-|X]; auto.
  - intros [<-|X]; auto. destruct (IH i X); auto.
Qed.
Lemma set_nth_length l i r : length (set_nth l i r) = length l.
Proof. revert i. induction l as [|h t IH]; intros [|i]; cbn [set_nth length]; auto. Qed.
Lemma ofold_inv {A S} (f : S -> A -> option S) (P : S -> Prop) l : (forall s a s', In a l -> P s -> f s a = Some s' -> P s') ->
  forall s s', P s -> ofold f l s = Some s' -> P s'.
Proof.
  induction l as [|a l IH]; intros E s s' Ps X; cbn [ofold] in X; [congruence|]. destruct (f s a) as [s1|] eqn:F; [|discriminate].
  apply (IH (fun s a s' Ha => E s a s' (or_intror Ha)) s1 s'); [|exact X]. exact (E s a s1 (or_introl eq_refl) Ps F).
Qed.
Lemma fold_inv {A S} (f : S -> A -> S) (P : S -> Prop) l : (forall s a, In a l -> P s -> P (f s a)) -> forall s, P s -> P (fold_left f l s).
Proof. induction l as [|a l IH]; intros E s Ps; cbn [fold_left]; [exact Ps|]. apply IH; [|apply E; [left; reflexivity|exact Ps]]. intros s1 a1 H1. apply E. right. exact H1. Qed.
Lemma fold_mput_In {V} (l : list (oname * V)) n x : forall m, In (n, x) (fold_left (fun m x => mput keyset_dec (fst x) (snd x) m) l m) -> In (n, x) l \/ In (n, x) m.
Proof.
  induction l as [|[n' x'] l IH]; intros m X; cbn [fold_left fst snd] in X; [auto|]. apply IH in X. destruct X as [X|X]; [left; right; exact X|].
  unfold mput in X. destruct X as [X|X]; [left; left; exact X|]. apply filter_In in X. right. tauto.
Qed.
Lemma fold_mput_keep {V} (l : list (oname * V)) n x : (forall y, In (n, y) l -> y = x) -> forall m,
  (In (n, x) l \/ In (n, x) m) -> In (n, x) (fold_left (fun m x => mput keyset_dec (fst x) (snd x) m) l m).
Proof.
  induction l as [|[n' x'] l IH]; intros F m X; cbn [fold_left fst snd]; [destruct X as [[]|X]; exact X|]. apply IH; [intros y Y; apply F; right; exact Y|].
  destruct (keyset_dec n n') as [<-|N].
  - right. unfold mput. left. rewrite (F x' (or_introl eq_refl)). reflexivity.
  - destruct X as [[X|X]|X]; [injection X as <- _; contradiction|left; exact X|]. right. unfold mput. right. apply filter_In. split; [exact X|]. cbn [fst]. destruct (keyset_dec n n'); [contradiction|].
    destruct (keyset_dec n' n); [congruence|reflexivity].
Qed.
Lemma lookup_In n m t : lookup n m = Some t -> In (n, t) m.
Proof.
  unfold lookup. induction m as [|[n' t'] m IH]; cbn [mget]; [discriminate|]. destruct (keyset_dec n n') as [<-|N].
  - intros X. injection X as <-. left. reflexivity.
  - intros X. right. exact (IH X).
Qed.
Lemma lookup_some n m t : In (n, t) m -> lookup n m <> None.
Proof.
  unfold lookup. induction m as [|[n' t'] m IH]; cbn [mget In]; [intros []|]. destruct (keyset_dec n n'); [discriminate|]. intros [X|X]; [congruence|exact (IH X)].
Qed.
Lemma FOP_In2 {A B} (P : B -> B -> Prop) (f : A -> B) l : (forall x y, P x y -> P y x) -> ForallOrdPairs P (map f l) -> forall a b, In a l -> In b l -> a <> b -> P (f a) (f b).
Proof.
  intros Sy. induction l as [|x l IH]; cbn [map]; intros X a b Ha Hb Ne; [inversion Ha|]. inversion X as [|? ? A1 A2]; subst. rewrite Forall_forall in A1.
  destruct Ha as [<-|Ha], Hb as [<-|Hb].
  - congruence.
  - apply A1. apply in_map. exact Hb.
  - apply Sy. apply A1. apply in_map. exact Ha.
  - apply IH; auto.
Qed.
Lemma filter_split {A} (f : A -> bool) l a x b : filter f l = a ++ x :: b -> exists a' b', l = a' ++ x :: b' /\ filter f a' = a.
Proof.
  revert a. induction l as [|y l IH]; intros a E; cbn [filter] in E; [destruct a; discriminate|]. destruct (f y) eqn:F.
  - destruct a as [|z a]; cbn [app] in E; injection E as E1 E2.
    + exists [], l. subst. auto.
    + subst z. destruct (IH a E2) as (a' & b' & -> & Ea). exists (y :: a'), b'. split; [reflexivity|]. cbn [filter]. rewrite F, Ea. reflexivity.
  - destruct (IH a E) as (a' & b' & -> & Ea). exists (y :: a'), b'. split; [reflexivity|]. cbn [filter]. rewrite F, Ea. reflexivity.
Qed.

Section OD.
Variable tb : table.
Hypothesis GT : good_table tb.
Notation ev := (genv tb).
Notation pk := (pk_of tb).
Notation R := (rows ev).
Notation all := (tb_indexes tb).
Notation good := (good_store tb).
Notation pks := (Core.pks tb).
Notation with_pk := (Core.with_pk tb).
Notation clash := (Spec.clash tb every).
Notation WT := (WT tb GT).
Notation Tt := (Tt tb GT).
Variable s : stmt.
Hypothesis WS : wf_stmt tb s.

(* ---------------- what is written is well formed ---------------- *)
Definition fine (n : nat) (d : dstate) : Prop :=
  Forall (wf_row tb) (d_rows d) /\ length (d_rows d) = n /\ (forall i, In i (d_ids d) -> (i < n)%nat) /\ forall x, In x (d_obj d) -> wf_row tb (snd x).
Lemma fine_row n d i : fine n d -> (i < n)%nat -> wf_row tb (row_at (d_rows d) i).
Proof. intros (A & B & _) L. rewrite Forall_forall in A. apply A. apply nth_In. lia. Qed.
Lemma fine_hit n name d i d' : fine n d -> hit_one s name d i = Some d' -> fine n d'.
Proof.
  intros F X. unfold hit_one in X. destruct (memb i (d_ids d)); [|injection X as <-; exact F]. destruct (lookup name (d_ptr d)) as [o|]; [|discriminate]. injection X as <-.
  destruct F as (A & B & C & D). split; [exact A|]. split; [exact B|]. split.
  - cbn [d_ids]. intros j Hj. apply C. apply erase_In in Hj. tauto.
  - cbn [d_obj]. intros x Hx. unfold set_obj in Hx. apply in_map_iff in Hx. destruct Hx as (y & <- & Hy). destruct (keyset_dec (fst y) o); [|exact (D y Hy)]. cbn [snd]. apply upd_wf; [exact GT|exact WS|exact (D y Hy)].
Qed.
Lemma fine_merge n m d i : (m < n)%nat -> fine n d -> fine n (merge_one s m d i).
Proof.
  intros L F. unfold merge_one. destruct (memb i (d_ids d)); [|exact F]. pose proof (fine_row n d m F L) as W. destruct F as (A & B & C & D). split; [|split; [|split]]; cbn [d_rows d_ids d_obj].
  - rewrite Forall_forall in *. intros x Hx. apply set_nth_In in Hx. destruct Hx as [->|Hx]; [apply upd_wf; assumption|exact (A x Hx)].
  - rewrite set_nth_length. exact B.
  - intros j Hj. apply C. apply erase_In in Hj. tauto.
  - exact D.
Qed.
Lemma fine_kind rs ret d k d' : fine (length rs) d -> dup_kind tb s rs ret d k = Some d' -> fine (length rs) d'.
Proof.
  intros F X. unfold dup_kind in X.
  destruct (ofold (fun d o => ofold (hit_one s (kid k, kkey tb k o)) (ids_of tb k rs (kkey tb k o)) d) (ret k) d) as [d1|] eqn:E; [|discriminate]. injection X as <-.
  assert (F1 : fine (length rs) d1).
  { revert E. apply (ofold_inv _ (fine (length rs))); [|exact F]. intros d0 o d0' _ F0. apply (ofold_inv _ (fine (length rs))); [|exact F0]. intros d2 i d2' _ F2. apply fine_hit. exact F2. }
  apply (fold_inv _ (fine (length rs))); [|exact F1]. intros d0 r _ F0. destruct (ids_of tb k rs (kkey tb k r)) as [|m is] eqn:I0; [exact F0|].
  assert (L : (m < length rs)%nat). { assert (X : In m (ids_of tb k rs (kkey tb k r))) by (rewrite I0; left; reflexivity). unfold ids_of in X. apply filter_In in X. destruct X as [X _]. apply in_seq in X. lia. }
  apply (fold_inv _ (fine (length rs))); [|exact F0]. intros d2 i _ F2. apply fine_merge; assumption.
Qed.

Section St.
Variable st : store.
Hypothesis G : good st.
Variable rs : list rec.
Hypothesis WI : Forall (wf_row tb) rs.
Notation direct := (get_rows tb st rs).
Notation rev := (reversed tb st rs).
Variable pri : list rec.
Hypothesis Epri : store_rows tb st rs = Some pri.

Lemma pri_In o : In o pri <-> R st (pk o) = Some (0, o) /\ exists r, In r rs /\ clash r o.
Proof. destruct (store_rows_spec tb GT st G rs WI) as (p & E & H1 & _). rewrite Epri in E. injection E as <-. apply H1. Qed.
Lemma pri_split o : In o pri -> In o direct \/ exists k e, In (k, e) rev /\ pk e = pk o.
Proof.
  destruct (store_rows_spec tb GT st G rs WI) as (p & E & _ & os & H1 & H2). rewrite Epri in E. injection E as <-. rewrite H1, in_app_iff. intros [X|X]; [left; exact X|right].
  assert (P : In (pk o) (pks (map snd rev))) by (rewrite <- H2; apply in_map; exact X). apply in_map_iff in P. destruct P as (e & Ee & P). apply in_map_iff in P. destruct P as ([k e'] & E' & P). cbn [snd] in E'. subst e'.
  exists k, e. auto.
Qed.
Lemma direct_pri o : In o direct -> In o pri.
Proof. intros X. destruct (store_rows_spec tb GT st G rs WI) as (p & E & _ & os & H1 & _). rewrite Epri in E. injection E as <-. rewrite H1. apply in_or_app. left. exact X. Qed.
Lemma same_row o o' : In o pri -> In o' pri -> pk o = pk o' -> o = o'.
Proof. intros A B E. apply pri_In in A. apply pri_In in B. destruct A as [A _], B as [B _]. rewrite E, B in A. congruence. Qed.
Lemma same_key_row k o o' : In k (kinds tb) -> R st (pk o) = Some (0, o) -> R st (pk o') = Some (0, o') -> kkey tb k o = kkey tb k o' -> o = o'.
Proof.
  intros Hk A B E. assert (P : pk o = pk o') by (apply (stored_apart tb GT st _ _ _ _ _ _ G A B); apply (clash_kinds tb); exists k; auto). rewrite P, B in A. congruence.
Qed.
(* the record a reversed index record stands for *)
Lemma rev_row k e : In (k, e) rev -> exists o, In k (kinds tb) /\ k <> None /\ In o pri /\ kkey tb k e = kkey tb k o /\ pk e = pk o /\ ~ In (pk o) (pks direct).
Proof.
  intros X. destruct (proj1 (rev_spec tb st rs) k e X) as ((ix & ->) & Hk & Ho & Nk). destruct (hits_sound tb GT st G rs WI _ e Hk Ho) as (r & o & Hr & A & B & C & D & _).
  exists o. split; [exact Hk|]. split; [discriminate|]. split; [apply pri_In; split; [exact A|]; exists r; split; [exact Hr|]; apply (clash_kinds tb); exists (Some ix); auto|].
  split; [exact C|]. split; [exact D|]. rewrite <- D. exact Nk.
Qed.

(* ---------------- the records and the pointers to them ---------------- *)
Definition named : list (oname * rec) :=
  flat_map (fun o => flat_map (fun '(k, e) => if cells_dec (kkey tb k o) (kkey tb k e) then [((kid k, kkey tb k o), o)] else []) rev) pri.
Definition objlist : list (oname * rec) := map (fun o => ((None, proj o (tb_pk tb)), o)) direct ++ named.
Notation objs := (fst (ptr_init tb st rs pri)).
Notation ptrs := (snd (ptr_init tb st rs pri)).
Lemma objs_eq : objs = fold_left (fun m x => mput keyset_dec (fst x) (snd x) m) objlist [].
Proof. reflexivity. Qed.
Lemma named_In n o : In (n, o) named <-> In o pri /\ exists k e, In (k, e) rev /\ pk e = pk o /\ n = (kid k, kkey tb k o).
Proof.
  unfold named. rewrite in_flat_map. split.
  - intros (x & Hx & X). apply in_flat_map in X. destruct X as ([k e] & He & X). destruct (cells_dec (kkey tb k x) (kkey tb k e)) as [E|]; [|inversion X]. destruct X as [X|[]]. injection X as <- <-.
    split; [exact Hx|]. exists k, e. split; [exact He|]. split; [|reflexivity]. destruct (rev_row k e He) as (o & Hk & _ & Ho & K1 & K2 & _).
    rewrite K2. f_equal. apply (same_key_row k); [exact Hk| | |congruence]; [apply pri_In in Ho|apply pri_In in Hx]; tauto.
  - intros (Ho & k & e & He & Pe & ->). exists o. split; [exact Ho|]. apply in_flat_map. exists (k, e). split; [exact He|].
    destruct (rev_row k e He) as (o2 & Hk & _ & Ho2 & K1 & K2 & _). assert (o2 = o) by (apply same_row; auto; congruence). subst o2.
    destruct (cells_dec (kkey tb k o) (kkey tb k e)); [left; reflexivity|congruence].
Qed.
Lemma objlist_In n o : In (n, o) objlist <-> (In o direct /\ n = (None, pk o)) \/ In (n, o) named.
Proof.
  unfold objlist. rewrite in_app_iff, in_map_iff. split.
  - intros [(x & E & X)|X]; [|auto]. injection E as <- <-. left. auto.
  - intros [(X & ->)|X]; [left; exists o; auto|auto].
Qed.
Lemma objlist_fun n o o' : In (n, o) objlist -> In (n, o') objlist -> o = o'.
Proof.
  intros A B. apply objlist_In in A. apply objlist_In in B. destruct A as [(A & ->)|A].
  - destruct B as [(B & E)|B]; [apply same_row; try apply direct_pri; auto; congruence|]. exfalso. apply named_In in B. destruct B as (_ & k & e & He & _ & E).
    destruct (rev_row k e He) as (_ & _ & Nk & _). destruct k; [discriminate|congruence].
  - apply named_In in A. destruct A as (Ho & k & e & He & Pe & ->). destruct (rev_row k e He) as (_ & Hk & Nk & _). destruct B as [(B & E)|B]; [destruct k; [discriminate|congruence]|].
    apply named_In in B. destruct B as (Ho' & k' & e' & He' & Pe' & E). destruct (rev_row k' e' He') as (_ & Hk' & _ & _). injection E as E1 E2. apply (kinds_kid tb GT) in E1; auto. subst k'.
    apply (same_key_row k); auto; [apply pri_In in Ho|apply pri_In in Ho']; tauto.
Qed.
Lemma objs_In n o : In (n, o) objs <-> In (n, o) objlist.
Proof.
  rewrite objs_eq. split.
  - intros X. apply fold_mput_In in X. destruct X as [X|[]]. exact X.
  - intros X. apply fold_mput_keep; [|left; exact X]. intros y Y. exact (objlist_fun n y o Y X).
Qed.
Lemma objs_names : NoDup (map fst objs).
Proof. rewrite objs_eq. apply mput_names. constructor. Qed.
Lemma objs_pri n o : In (n, o) objs -> In o pri.
Proof. intros X. apply objs_In, objlist_In in X. destruct X as [(X & _)|X]; [exact (direct_pri o X)|]. apply named_In in X. tauto. Qed.
Lemma pri_objs o : In o pri -> exists n, In (n, o) objs.
Proof.
  intros X. destruct (pri_split o X) as [Y|(k & e & He & Pe)].
  - exists (None, pk o). apply objs_In, objlist_In. auto.
  - exists (kid k, kkey tb k o). apply objs_In, objlist_In. right. apply named_In. split; [exact X|]. exists k, e. auto.
Qed.
Lemma objs_one n n' o : In (n, o) objs -> In (n', o) objs -> n = n'.
Proof.
  intros A B. apply objs_In, objlist_In in A. apply objs_In, objlist_In in B.
  assert (Mix : forall m, In o direct -> In (m, o) named -> False).
  { intros m D N. apply named_In in N. destruct N as (_ & k & e & He & Pe & _). destruct (rev_row k e He) as (o2 & _ & _ & _ & _ & P2 & Nd). apply Nd. rewrite <- P2, Pe. apply in_map. exact D. }
  destruct A as [(A & ->)|A], B as [(B & ->)|B]; [reflexivity|exfalso; eauto|exfalso; eauto|].
  apply named_In in A. apply named_In in B. destruct A as (_ & k & e & He & Pe & ->). destruct B as (_ & k' & e' & He' & Pe' & ->).
  assert (X : (k, e) = (k', e')); [|injection X as -> _; reflexivity].
  pose proof (proj1 (proj2 (rev_spec tb st rs))) as ND. clear -He He' Pe Pe' ND. assert (Ep : pk e = pk e') by congruence. clear Pe Pe'. induction rev as [|[k0 e0] l IH]; [inversion He|]. cbn [map snd Core.pks] in ND. inversion ND as [|? ? N1 N2]; subst.
  destruct He as [X|He], He' as [Y|He'].
  - congruence.
  - injection X as -> ->. exfalso. apply N1. rewrite Ep. apply in_map. apply in_map_iff. exists (k', e'). auto.
  - injection Y as -> ->. exfalso. apply N1. rewrite <- Ep. apply in_map. apply in_map_iff. exists (k, e). auto.
  - exact (IH He He' N2).
Qed.
Lemma ptrs_sound k key t : In k (kinds tb) -> In ((kid k, key), t) ptrs -> exists o, In (t, o) objs /\ kkey tb k o = key.
Proof.
  intros Hk X. unfold ptr_init in X. cbn [snd] in X. rewrite !in_app_iff in X. destruct X as [X|[X|X]].
  - apply in_map_iff in X. destruct X as (o & E & X). injection E as E1 E2 <-. exists o. split; [apply objs_In, objlist_In; auto|]. destruct k; [discriminate|exact E2].
  - apply in_flat_map in X. destruct X as (k' & Hk' & X). destruct k' as [ix|]; [|inversion X]. apply in_flat_map in X. destruct X as (o' & Ho' & X).
    destruct (in_dec cells_dec (proj o' (tb_pk tb)) (map (fun o => proj o (tb_pk tb)) direct)) as [I1|]; [|inversion X]. destruct X as [X|[]]. injection X as E1 E2 <-.
    apply (kinds_kid tb GT (Some ix) k Hk' Hk) in E1. subst k. apply in_map_iff in I1. destruct I1 as (d & Ed & I1). change (pk d = pk o') in Ed.
    exists d. split; [apply objs_In, objlist_In; left; split; [exact I1|]; change (proj o' (tb_pk tb)) with (pk o'); rewrite Ed; reflexivity|]. rewrite <- E2.
    destruct (hits_sound tb GT st G rs WI _ o' Hk' Ho') as (_ & o & _ & Y1 & _ & Y2 & Y3 & _). change (kkey tb (Some ix) d = kkey tb (Some ix) o'). rewrite Y2. f_equal.
    apply direct_pri in I1. apply pri_In in I1. destruct I1 as [I1 _]. rewrite Ed, Y3, Y1 in I1. congruence.
  - apply in_map_iff in X. destruct X as ([n o] & E & X). cbn [fst] in E. injection E as E1 <-. exists o. change (In (n, o) named) in X. split; [apply objs_In, objlist_In; right; exact X|].
    apply named_In in X. destruct X as (_ & k' & e & He & _ & En). destruct (rev_row k' e He) as (_ & Hk' & _). rewrite En in E1. injection E1 as E1 E2. apply (kinds_kid tb GT) in E1; auto. subst k'. exact E2.
Qed.
End St.

Lemma on_dup_good st rs st' n : good st -> Forall (wf_row tb) rs -> run_on_dup tb s st rs = GDone st' n -> good st'.
Proof.
  intros G WI X. unfold run_on_dup in X. destruct (store_rows tb st rs) as [pri|] eqn:E; [|discriminate].
  pose proof (objs_pri st G rs WI pri E) as Op. destruct (ptr_init tb st rs pri) as [obj ptr]. cbn [fst] in Op.
  destruct (ofold (dup_kind tb s rs (returned tb st rs pri)) (kinds tb) (mkD rs (seq 0 (length rs)) obj ptr 0)) as [d|] eqn:D; [|discriminate].
  assert (F : fine (length rs) d).
  { revert D. apply (ofold_inv _ (fine (length rs))); [intros d0 k d1 _ F0; apply fine_kind; exact F0|]. split; [exact WI|]. split; [reflexivity|]. cbn [d_ids d_obj]. split; [intros i Hi; apply in_seq in Hi; lia|].
    intros [m o] Hx. apply Op in Hx. apply (pri_In st G rs WI pri E) in Hx. cbn [snd]. exact (R_wf tb WT st G _ _ _ (proj1 Hx)). }
  set (ins := map (row_at (d_rows d)) (d_ids d) ++ map snd (d_obj d)) in *.
  assert (W : Forall (wf_row tb) ins).
  { apply Forall_forall. intros x Hx. unfold ins in Hx. apply in_app_iff in Hx. destruct Hx as [Hx|Hx]; apply in_map_iff in Hx.
    - destruct Hx as (i & <- & Hi). apply (fine_row _ _ _ F). apply F. exact Hi.
    - destruct Hx as (y & <- & Hy). destruct F as (_ & _ & _ & F). exact (F y Hy). }
  pose proof (dml_spec tb GT pri ins st G (fun d Hd => proj1 (proj1 (pri_In st G rs WI pri E d) Hd)) W) as Y. destruct (dml tb pri ins st); [|discriminate]. injection X as <- _. tauto.
Qed.

(* ---------------- one row ---------------- *)
Section One.
Hypothesis DS : dup_stmt s.
Variable st : store.
Hypothesis G : good st.
Variable r : rec.
Hypothesis Wr : wf_row tb r.
Notation rs := [r].
Let WI : Forall (wf_row tb) rs := Forall_cons r Wr (Forall_nil _).
Variable pri : list rec.
Hypothesis Epri : store_rows tb st rs = Some pri.
Notation ret := (returned tb st rs pri).
Notation objs := (fst (ptr_init tb st rs pri)).
Notation ptrs := (snd (ptr_init tb st rs pri)).

Lemma ids_one k key : ids_of tb k rs key = if cells_dec (kkey tb k r) key then [0%nat] else [].
Proof. unfold ids_of. cbn [length seq filter row_at nth]. destruct (cells_dec (kkey tb k r) key); reflexivity. Qed.
Lemma kind_done d k : d_ids d = [] -> dup_kind tb s rs ret d k = Some d.
Proof.
  intros E. unfold dup_kind.
  assert (X : forall l, ofold (fun d o => ofold (hit_one s (kid k, kkey tb k o)) (ids_of tb k rs (kkey tb k o)) d) l d = Some d).
  { induction l as [|o l IH]; cbn [ofold]; [reflexivity|]. rewrite ids_one. destruct (cells_dec (kkey tb k r) (kkey tb k o)); cbn [ofold]; [|exact IH]. unfold hit_one. rewrite E. cbn [memb existsb]. exact IH. }
  rewrite X. cbn [fold_left]. rewrite ids_one. destruct (cells_dec (kkey tb k r) (kkey tb k r)); reflexivity.
Qed.
Lemma kinds_done d ks : d_ids d = [] -> ofold (dup_kind tb s rs ret) ks d = Some d.
Proof. intros E. induction ks as [|k ks IH]; cbn [ofold]; [reflexivity|]. rewrite (kind_done d k E). exact IH. Qed.
Notation d0 := (mkD rs [0%nat] objs ptrs 0).
Lemma kind_none k : (forall o, In o (ret k) -> kkey tb k o <> kkey tb k r) -> dup_kind tb s rs ret d0 k = Some d0.
Proof.
  intros N. unfold dup_kind.
  assert (X : forall l, (forall o, In o l -> kkey tb k o <> kkey tb k r) -> ofold (fun d o => ofold (hit_one s (kid k, kkey tb k o)) (ids_of tb k rs (kkey tb k o)) d) l d0 = Some d0).
  { induction l as [|o l IH]; intros Nl; cbn [ofold]; [reflexivity|]. rewrite ids_one. destruct (cells_dec (kkey tb k r) (kkey tb k o)) as [E|]; [exfalso; apply (Nl o (or_introl eq_refl)); auto|]. cbn [ofold]. apply IH. intros x Hx. apply Nl. right. exact Hx. }
  rewrite (X _ N). cbn [fold_left]. rewrite ids_one. destruct (cells_dec (kkey tb k r) (kkey tb k r)); reflexivity.
Qed.
Definition d1 (t : oname) : dstate := mkD rs [] (set_obj objs t (fun x => upd s x r)) ptrs 0.
Lemma kind_hit k o t : In o (ret k) -> kkey tb k o = kkey tb k r -> lookup (kid k, kkey tb k r) ptrs = Some t -> dup_kind tb s rs ret d0 k = Some (d1 t).
Proof.
  intros Ho Ek L. unfold dup_kind.
  assert (X : forall l, In o l -> ofold (fun d o => ofold (hit_one s (kid k, kkey tb k o)) (ids_of tb k rs (kkey tb k o)) d) l d0 = Some (d1 t)).
  { induction l as [|x l IH]; intros Hl; [inversion Hl|]. cbn [ofold]. rewrite ids_one. destruct (cells_dec (kkey tb k r) (kkey tb k x)) as [E|N].
    - cbn [ofold]. unfold hit_one at 1. cbn [d_ids memb existsb Nat.eqb orb d_ptr d_rows d_obj d_dup]. rewrite <- E, L. fold (d1 t).
      change (erase 0 [0%nat]) with (@nil nat). change (row_at rs 0) with r. fold (d1 t).
      assert (Y : forall l, ofold (fun d o => ofold (hit_one s (kid k, kkey tb k o)) (ids_of tb k rs (kkey tb k o)) d) l (d1 t) = Some (d1 t)).
      { clear. induction l as [|o l IH]; cbn [ofold]; [reflexivity|]. rewrite ids_one. destruct (cells_dec (kkey tb k r) (kkey tb k o)); cbn [ofold]; exact IH. }
      apply Y.
    - cbn [ofold]. apply IH. destruct Hl as [->|Hl]; [congruence|exact Hl]. }
  rewrite (X _ Ho). cbn [fold_left]. rewrite ids_one. destruct (cells_dec (kkey tb k r) (kkey tb k r)); reflexivity.
Qed.
(* which keys come back *)
Definition found (k : kind) : Prop := exists o, R st (pk o) = Some (0, o) /\ kkey tb k o = kkey tb k r.
Lemma ret_found k : In k (kinds tb) -> (exists o, In o (ret k) /\ kkey tb k o = kkey tb k r) <-> found k.
Proof.
  intros Hk. unfold found. split.
  - intros (o & Ho & E). destruct k as [ix|].
    + destruct (hits_sound tb GT st G rs WI _ o Hk Ho) as (_ & o2 & _ & A & _ & B & _). exists o2. split; [exact A|congruence].
    + exists o. split; [|exact E]. cbn [returned] in Ho. apply (pri_In st G rs WI pri Epri) in Ho. tauto.
  - intros (o & A & E). destruct k as [ix|].
    + destruct (hits_complete tb GT st G rs WI _ r (pk o) 0 o Hk (or_introl eq_refl) A (eq_sym E)) as (o' & B & C & _). exists o'. split; [exact B|congruence].
    + exists o. split; [|exact E]. cbn [returned]. apply (pri_In st G rs WI pri Epri). split; [exact A|]. exists r. split; [left; reflexivity|]. left. symmetry. exact E.
Qed.
Lemma no_hits k : In k (kinds tb) -> ~ found k -> hits tb st rs k = [].
Proof.
  intros Hk N. destruct (hits tb st rs k) as [|o l] eqn:E; [reflexivity|]. exfalso. destruct (hits_sound tb GT st G rs WI k o Hk) as (x & o2 & [<-|[]] & A & B & _); [rewrite E; left; reflexivity|]. apply N. exists o2. auto.
Qed.
Lemma found_dec ks : incl ks (kinds tb) -> (forall k, In k ks -> ~ found k) \/ exists a k b, ks = a ++ k :: b /\ found k /\ forall j, In j a -> ~ found j.
Proof.
  induction ks as [|k ks IH]; intros Inc; [left; intros k []|].
  assert (D : found k \/ ~ found k).
  { destruct (existsb (fun o => if cells_dec (kkey tb k o) (kkey tb k r) then true else false) (ret k)) eqn:E.
    - left. apply ret_found; [apply Inc; left; reflexivity|]. apply existsb_exists in E. destruct E as (o & A & B). exists o. split; [exact A|]. destruct (cells_dec (kkey tb k o) (kkey tb k r)); [assumption|discriminate].
    - right. intros X. apply ret_found in X; [|apply Inc; left; reflexivity]. destruct X as (o & A & B).
      assert (existsb (fun o => if cells_dec (kkey tb k o) (kkey tb k r) then true else false) (ret k) = true); [|congruence]. apply existsb_exists. exists o. split; [exact A|]. destruct (cells_dec (kkey tb k o) (kkey tb k r)); congruence. }
  destruct D as [D|D]; [right; exists [], k, ks; split; [reflexivity|]; split; [exact D|intros j []]|].
  destruct (IH (fun j Hj => Inc j (or_intror Hj))) as [N|(a & k' & b & -> & F & N)].
  - left. intros j [<-|Hj]; auto.
  - right. exists (k :: a), k', b. split; [reflexivity|]. split; [exact F|]. intros j [<-|Hj]; auto.
Qed.
Lemma kinds_skip a ks : incl a (kinds tb) -> (forall j, In j a -> ~ found j) -> ofold (dup_kind tb s rs ret) (a ++ ks) d0 = ofold (dup_kind tb s rs ret) ks d0.
Proof.
  induction a as [|k a IH]; intros Inc N; cbn [app ofold]; [reflexivity|].
  rewrite kind_none.
  - apply IH; [intros j Hj; apply Inc; right; exact Hj|intros j Hj; apply N; right; exact Hj].
  - intros o Ho E. apply (N k (or_introl eq_refl)). apply ret_found; [apply Inc; left; reflexivity|]. exists o. auto.
Qed.
Lemma reverse_skip a ks : forall known seen, incl a (kinds tb) -> (forall j, In j a -> ~ found j) -> reverse_all tb st rs known (a ++ ks) seen = reverse_all tb st rs known ks seen.
Proof.
  induction a as [|k a IH]; intros known seen Inc N; cbn [app]; [reflexivity|].
  assert (X : reverse_all tb st rs known (a ++ ks) seen = reverse_all tb st rs known ks seen) by (apply IH; [intros j Hj; apply Inc; right; exact Hj|intros j Hj; apply N; right; exact Hj]).
  destruct k as [ix|]; cbn [reverse_all]; [|exact X]. rewrite (no_hits (Some ix)); [|apply Inc; left; reflexivity|apply N; left; reflexivity]. cbn [reverse_list app]. exact X.
Qed.
Lemma first_pointer a k b : kinds tb = a ++ k :: b -> found k -> (forall j, In j a -> ~ found j) -> exists t, lookup (kid k, kkey tb k r) ptrs = Some t.
Proof.
  intros Ek F N. assert (Hk : In k (kinds tb)) by (rewrite Ek; apply in_or_app; right; left; reflexivity).
  assert (Inc : incl a (kinds tb)) by (intros j Hj; rewrite Ek; apply in_or_app; left; exact Hj).
  destruct F as (o & Ro & Eo).
  assert (Ho : In o pri). { apply (pri_In st G rs WI pri Epri). split; [exact Ro|]. exists r. split; [left; reflexivity|]. apply (clash_kinds tb). exists k. auto. }
  assert (X : exists t, In ((kid k, kkey tb k r), t) ptrs).
  { destruct k as [ix|].
    - (* the primary key was tried first *)
      assert (N0 : ~ found None). { apply N. unfold kinds in Ek. destruct a as [|x a]; [discriminate|]. injection Ek as <- _. left. reflexivity. }
      assert (D0 : get_rows tb st rs = []) by (exact (no_hits None (or_introl eq_refl) N0)).
      destruct (hits_complete tb GT st G rs WI _ r (pk o) 0 o Hk (or_introl eq_refl) Ro (eq_sym Eo)) as (o' & B & C & D).
      assert (Rv : In (Some ix, o') (reversed tb st rs)).
      { unfold reversed. rewrite D0, Ek, reverse_skip by assumption. cbn [map reverse_all].
        assert (Hl : hits tb st rs (Some ix) = [o']).
        { cbn [hits get_entries flat_map] in *. rewrite app_nil_r in *. destruct (get_sec tb st ix r); try (destruct B; fail); destruct B as [B|[]]; rewrite B; reflexivity. }
        rewrite Hl. cbn [reverse_list]. destruct (in_dec cells_dec (proj o' (tb_pk tb)) []) as [[]|]. left. reflexivity. }
      exists (kid (Some ix), kkey tb (Some ix) r). unfold ptr_init. cbn [snd]. rewrite !in_app_iff. right. right. apply in_map_iff. exists ((kid (Some ix), kkey tb (Some ix) r), o). split; [reflexivity|].
      change (In ((kid (Some ix), kkey tb (Some ix) r), o) (named st rs pri)). apply (named_In st G rs WI pri Epri). split; [exact Ho|]. exists (Some ix), o'. split; [exact Rv|]. split; [exact D|]. rewrite Eo. reflexivity.
    - exists (None, pk o). unfold ptr_init. cbn [snd]. rewrite !in_app_iff. left. apply in_map_iff. exists o. split; [cbn [kid]; rewrite <- Eo; reflexivity|].
      apply (get_rows_In tb GT st G rs WI). exists r. split; [left; reflexivity|]. cbn [kkey] in Eo. change (pk o = pk r) in Eo. rewrite <- Eo. exact Ro. }
  destruct X as (t & X). destruct (lookup (kid k, kkey tb k r) ptrs) as [t'|] eqn:L; [exists t'; reflexivity|]. exfalso. exact (lookup_some _ _ _ X L).
Qed.

Lemma on_dup_eq : (forall k, In k (kinds tb) -> ~ found k) /\ run_on_dup tb s st rs = match dml tb pri (r :: map snd objs) st with None => GFail | Some st' => GDone st' (Z.of_nat (S (length objs)) + Z.of_nat (length pri)) end \/
  exists a k b o t, kinds tb = a ++ k :: b /\ (forall j, In j a -> ~ found j) /\ R st (pk o) = Some (0, o) /\ kkey tb k o = kkey tb k r /\ In (t, o) objs /\
    run_on_dup tb s st rs = match dml tb pri (map snd (set_obj objs t (fun x => upd s x r))) st with None => GFail | Some st' => GDone st' (Z.of_nat (length objs) + Z.of_nat (length pri)) end.
Proof.
  unfold run_on_dup. rewrite Epri. destruct (ptr_init tb st rs pri) as [objs0 ptrs0] eqn:Ep. cbn [length seq].
  assert (O1 : objs0 = objs) by (rewrite Ep; reflexivity). assert (P1 : ptrs0 = ptrs) by (rewrite Ep; reflexivity). cbn [fst]. rewrite O1, P1. clear O1 P1 Ep objs0 ptrs0.
  destruct (found_dec (kinds tb) (incl_refl _)) as [N|(a & k & b & Ek & F & N)].
  - left. split; [exact N|]. rewrite <- (app_nil_r (kinds tb)), kinds_skip by (auto; apply incl_refl). cbn [ofold d_rows d_ids d_obj d_dup map app row_at nth length]. rewrite map_length.
    destruct (dml tb pri (r :: map snd objs) st); [f_equal; lia|reflexivity].
  - right. assert (Hk : In k (kinds tb)) by (rewrite Ek; apply in_or_app; right; left; reflexivity).
    destruct (first_pointer a k b Ek F N) as (t & L). destruct (proj2 (ret_found k Hk) F) as (o' & Ho' & Eo').
    destruct (ptrs_sound st G rs WI pri Epri k _ t Hk (lookup_In _ _ _ L)) as (o & Ho & Eo). exists a, k, b, o, t. split; [exact Ek|]. split; [exact N|].
    split; [exact (proj1 (proj1 (pri_In st G rs WI pri Epri o) (objs_pri st G rs WI pri Epri _ _ Ho)))|]. split; [exact Eo|]. split; [exact Ho|].
    rewrite Ek, kinds_skip; [|intros j Hj; rewrite Ek; apply in_or_app; left; exact Hj|exact N]. cbn [ofold]. rewrite (kind_hit k o' t Ho' Eo' L), kinds_done by reflexivity.
    unfold d1. cbn [d_rows d_ids d_obj d_dup map app]. rewrite map_length. unfold set_obj at 2. rewrite map_length. destruct (dml tb pri _ st); [f_equal; lia|reflexivity].
Qed.
Lemma pri_nodup : NoDup (pks pri).
Proof.
  destruct (store_rows_spec tb GT st G rs WI) as (p & E & _ & os & E1 & E2). rewrite Epri in E. injection E as <-. rewrite E1. unfold Core.pks in *. rewrite map_app. apply NoDup_both.
  - unfold get_rows. cbn [flat_map]. rewrite app_nil_r. destruct (get_primary _ _ _ _ _); cbn [map]; repeat constructor. intros [].
  - rewrite E2. exact (proj1 (proj2 (rev_spec tb st rs))).
  - intros q P1 P2. rewrite E2 in P2. apply in_map_iff in P2. destruct P2 as (o & Eo & P2). apply in_map_iff in P2. destruct P2 as ([k o'] & E' & P2). cbn [snd] in E'. subst o'.
    destruct (proj1 (rev_spec tb st rs) k o P2) as (_ & _ & _ & X). apply X. rewrite Eo. exact P1.
Qed.
Lemma first_clash_of a k b o : kinds tb = a ++ k :: b -> (forall j, In j a -> ~ found j) -> R st (pk o) = Some (0, o) -> kkey tb k o = kkey tb k r ->
  first_clash tb (enforced s) (R st) r (pk o) 0 o.
Proof.
  intros Ek N Ro Eo. split; [exact Ro|]. destruct k as [ix|]; [right|left; exact Eo].
  unfold kinds in Ek. destruct a as [|x a]; [discriminate|]. injection Ek as <- Ek. split.
  - destruct (R st (pk r)) as [[e o2]|] eqn:E; [|reflexivity]. exfalso. apply (N None (or_introl eq_refl)). exists o2. split; [exact (R_self tb WT Tt st G _ _ _ E)|]. exact (R_pk tb WT st G _ _ _ E).
  - assert (Z : exists a' b', filter ix_uniq all = a' ++ ix :: b' /\ map Some a' = a).
    { clear -Ek. revert a Ek. induction (filter ix_uniq all) as [|y l IH]; intros a Ek; cbn [map] in Ek; [destruct a; discriminate|]. destruct a as [|z a]; cbn [app] in Ek; injection Ek as E1 E2.
      - subst y. exists [], l. auto.
      - destruct (IH a E2) as (a' & b' & -> & <-). exists (y :: a'), b'. subst z. auto. }
    destruct Z as (a' & b' & Ef & Ea). destruct (filter_split _ _ _ _ _ Ef) as (before & after & El & Eb). exists before, ix, after. split; [exact El|].
    assert (Hix : In ix all) by (rewrite El; apply in_or_app; right; left; reflexivity).
    assert (Hf : In ix (filter ix_uniq all)) by (rewrite Ef; apply in_or_app; right; left; reflexivity). apply filter_In in Hf.
    split; [tauto|]. split; [unfold enforced, in_use; rewrite (Pu tb GT ix Hix); apply orb_true_r|]. split; [symmetry; exact Eo|].
    intros ix' q' e' o' H1 U1 _ R1 E1. apply (N (Some ix')).
    + right. rewrite <- Ea, <- Eb. apply in_map. apply filter_In. auto.
    + exists o'. split; [exact (R_self tb WT Tt st G _ _ _ R1)|]. symmetry. exact E1.
Qed.
End One.

Lemma on_dup_one st r : good st -> wf_row tb r -> dup_stmt s ->
  match run_on_dup tb s st [r] with
  | GDone st' n => exists m, insert_spec ev s 0 (R st) r (Does (R st') m) /\
      ((forall q e o q' e' o', R st q = Some (e, o) -> clash r o -> R st q' = Some (e', o') -> clash r o' -> q = q') -> n = m)
  | GFail => insert_spec ev s 0 (R st) r Fails
  | GCrash => False
  end.
Proof.
  intros G Wr DS. pose (WI := Forall_cons r Wr (Forall_nil _) : Forall (wf_row tb) [r]).
  destruct (store_rows_spec tb GT st G [r] WI) as (pri & Epri & Hp & _). pose proof (pri_nodup st G r Wr pri Epri) as NDp.
  destruct DS as (Nd & Srp & Sig & Sup & Sdd & Ske).
  assert (Od : on_dup s = true) by (unfold on_dup; rewrite Nd; destruct (s_updates s); [congruence|reflexivity]).
  assert (RD : forall d, In d pri -> R st (pk d) = Some (0, d)) by (intros d Hd; apply Hp in Hd; tauto).
  pose proof (objs_pri st G [r] WI pri Epri) as Op. pose proof (pri_objs st G [r] WI pri Epri) as Po. pose proof (objs_names st [r] pri) as On. pose proof (objs_one st G [r] WI pri Epri) as O1.
  destruct (on_dup_eq st G r Wr pri Epri) as [(N & ->)|(a & k & b & o & t & Ek & N & Ro & Eo & Ho & ->)].
  - (* no clash *)
    assert (Nc : forall q e o, R st q = Some (e, o) -> ~ clash r o).
    { intros q e o E C. apply (clash_kinds tb) in C. destruct C as (k & Hk & C). apply (N k Hk). exists o. split; [exact (R_self tb WT Tt st G _ _ _ E)|congruence]. }
    assert (E0 : pri = []). { destruct pri as [|o l]; [reflexivity|]. exfalso. destruct (proj1 (Hp o) (or_introl eq_refl)) as (A & x & [<-|[]] & C). exact (Nc _ _ _ A C). }
    set (ob := fst (ptr_init tb st [r] pri)) in *. assert (E1 : ob = []). { destruct ob as [|[n o] l]; [reflexivity|]. exfalso. pose proof (Op n o (or_introl eq_refl)) as X. rewrite E0 in X. exact X. }
    rewrite E0, E1. cbn [map length]. pose proof (dml_spec tb GT [] [r] st G ltac:(intros d []) WI) as X.
    destruct (dml tb [] [r] st) as [st'|].
    + exists 1. split; [|intros _; reflexivity]. destruct X as (_ & _ & _ & X). apply ins_new; [reflexivity| |].
      * intros q e o E C. apply (enforced_all tb GT) in C; [|exact Sdd]. exact (Nc q e o E C).
      * intros q. rewrite X. unfold new_rows, cput. rewrite with_pk_cons. cbn [genv e_tb]. destruct (cells_dec (pk r) q); [reflexivity|]. cbn [Core.with_pk find]. destruct (in_dec cells_dec q (pks [])) as [[]|]; reflexivity.
    + exfalso. apply X. split; [repeat constructor|]. intros x q e o [<-|[]] E _ C. exact (Nc q e o E C).
  - (* the first row it clashes with is updated *)
    set (ob := fst (ptr_init tb st [r] pri)) in *. set (nw := upd s o r).
    pose proof (first_clash_of st G r a k b o Ek N Ro Eo) as Fc.
    assert (Hop : In o pri) by (exact (Op t o Ho)).
    set (g := fun x : oname * rec => snd (if keyset_dec (fst x) t then (fst x, upd s (snd x) r) else x)).
    assert (Eg : map snd (set_obj ob t (fun x => upd s x r)) = map g ob). { unfold set_obj, g. rewrite map_map. reflexivity. }
    rewrite Eg.
    assert (Gt : forall x, In x ob -> (x = (t, o) /\ g x = nw) \/ (fst x <> t /\ snd x <> o /\ g x = snd x /\ In (snd x) pri)).
    { intros [n x] Hx. unfold g. cbn [fst snd]. destruct (keyset_dec n t) as [->|Ne].
      - left. assert (x = o) as ->; [|auto]. clear -On Hx Ho. induction ob as [|[n' y] l IH]; [inversion Hx|]. cbn [map fst] in On. inversion On as [|? ? N1 N2]; subst.
        destruct Hx as [X|X], Ho as [Y|Y]; [congruence| | |exact (IH N2 Y X)]; exfalso; apply N1; [injection X as -> _; apply in_map_iff; exists (t, o)|injection Y as -> _; apply in_map_iff; exists (t, x)]; auto.
      - right. split; [exact Ne|]. split; [intros ->; apply Ne; exact (O1 n t o Hx Ho)|]. split; [reflexivity|]. exact (Op n x Hx). }
    assert (NDo : NoDup ob) by (apply (NoDup_map_inv fst); exact On).
    assert (In_ins : forall x, In x (map g ob) <-> x = nw \/ (In x pri /\ x <> o)).
    { intros x. rewrite in_map_iff. split.
      - intros (y & <- & Hy). destruct (Gt y Hy) as [[_ ->]|(_ & A & -> & B)]; auto.
      - intros [->|[A B]].
        + exists (t, o). split; [|exact Ho]. destruct (Gt (t, o) Ho) as [[_ X]|(X & _)]; [exact X|exfalso; apply X; reflexivity].
        + destruct (Po x A) as (n & Hn). exists (n, x). split; [|exact Hn]. destruct (Gt (n, x) Hn) as [[X _]|(_ & _ & X & _)]; [congruence|exact X]. }
    assert (W : Forall (wf_row tb) (map g ob)).
    { apply Forall_forall. intros x Hx. apply In_ins in Hx. destruct Hx as [->|[Hx _]].
      - apply upd_wf; [exact GT|exact WS|]. exact (R_wf tb WT st G _ _ _ Ro).
      - exact (R_wf tb WT st G _ _ _ (RD x Hx)). }
    assert (Ne_pk : forall x, In x pri -> x <> o -> pk x <> pk o). { intros x Hx Nx E. apply Nx. pose proof (RD x Hx) as X. rewrite E, Ro in X. congruence. }
    assert (Eqv : apart tb (map g ob) /\ clear_of tb st pri (map g ob) <-> others_free tb every (R st) (pk o) nw).
    { split.
      - intros [Ap Cl] q e x Nq Ex C. destruct (in_dec cells_dec q (pks pri)) as [I1|I1].
        + apply in_map_iff in I1. destruct I1 as (y & Ey & Hy). assert (y = x). { pose proof (RD y Hy) as Z. rewrite Ey, Ex in Z. congruence. } subst y.
          destruct (Po x Hy) as (n & Hn). assert (Nx : x <> o) by (intros ->; apply Nq; auto).
          pose proof (FOP_In2 (fun r r' => ~ clash r r') g ob (fun x y H1 H2 => H1 (clash_sym tb _ _ H2)) Ap (t, o) (n, x) Ho Hn) as Z.
          destruct (Gt (t, o) Ho) as [[_ E1]|(X & _)]; [|apply X; reflexivity]. destruct (Gt (n, x) Hn) as [[X _]|(_ & _ & E2 & _)]; [congruence|]. rewrite E1, E2 in Z. apply Z; [congruence|exact C].
        + apply (Cl nw q e x); [apply In_ins; auto|exact Ex|exact I1|exact C].
      - intros Fr. split.
        + apply FOP_map_In; [exact NDo|]. intros x y Hx Hy Nxy C. destruct (Gt x Hx) as [[Ex Gx]|(A1 & A2 & Gx & A3)], (Gt y Hy) as [[Ey Gy]|(B1 & B2 & Gy & B3)]; rewrite Gx, Gy in C.
          * congruence.
          * exact (Fr (pk (snd y)) 0 (snd y) (Ne_pk _ B3 B2) (RD _ B3) C).
          * apply (Fr (pk (snd x)) 0 (snd x) (Ne_pk _ A3 A2) (RD _ A3)). apply clash_sym. exact C.
          * apply Nxy. pose proof (stored_apart tb GT st _ _ _ _ _ _ G (RD _ A3) (RD _ B3) C) as P. pose proof (RD _ A3) as Z. rewrite P, (RD _ B3) in Z. injection Z as Z.
            destruct x as [n x], y as [m y]. cbn [snd] in *. subst y. f_equal. exact (O1 n m x Hx Hy).
        + intros x q e y Hx Ey Nq C. apply In_ins in Hx. destruct Hx as [->|[Hx _]].
          * apply (Fr q e y); [|exact Ey|exact C]. intros ->. apply Nq. apply in_map. exact Hop.
          * apply Nq. rewrite <- (stored_apart tb GT st _ _ _ _ _ _ G (RD x Hx) Ey C). apply in_map. exact Hx. }
    pose proof (dml_spec tb GT pri (map g ob) st G RD W) as X. destruct (dml tb pri (map g ob) st) as [st'|].
    + destruct X as (_ & Ap & Cl & Rr). exists 2. split.
      * apply (ins_update ev s 0 (R st) r (pk o) 0 o); [reflexivity|exact Sig|exact Od|exact Fc|]. apply set_ok.
        -- intros q e x Nq Ex C. apply (enforced_all tb GT) in C; [|exact Sdd]. rewrite <- upd_set in C. exact (proj1 Eqv (conj Ap Cl) q e x Nq Ex C).
        -- rewrite Ske, <- upd_set. fold nw. intros q. rewrite Rr. unfold new_rows, cput, cdel. cbn [genv e_tb].
           assert (NDi : NoDup (pks (map g ob))) by (apply (apart_iff tb); exact Ap).
           destruct (cells_dec (pk nw) q) as [E|Nq].
           ++ rewrite (proj2 (with_pk_iff tb _ q nw NDi)); [reflexivity|]. split; [apply In_ins; auto|exact E].
           ++ destruct (with_pk (map g ob) q) as [x|] eqn:Ex.
              ** apply with_pk_iff in Ex; [|exact NDi]. destruct Ex as [Hx Px]. apply In_ins in Hx. destruct Hx as [->|[Hx Nx]]; [contradiction|].
                 destruct (cells_dec (pk o) q) as [Eq|_]; [exfalso; apply (Ne_pk x Hx Nx); congruence|]. rewrite <- Px. symmetry. exact (RD x Hx).
              ** apply with_pk_none in Ex. destruct (in_dec cells_dec q (pks pri)) as [I1|I1].
                 --- destruct (cells_dec (pk o) q) as [_|Nq2]; [reflexivity|]. exfalso. apply Ex. apply in_map_iff in I1. destruct I1 as (x & <- & Hx). apply in_map. apply In_ins. right. split; [exact Hx|]. intros ->. apply Nq2. reflexivity.
                 --- destruct (cells_dec (pk o) q) as [Eq|_]; [|reflexivity]. exfalso. apply I1. rewrite <- Eq. apply in_map. exact Hop.
      * intros Uni.
        assert (All : forall x, In x pri -> x = o).
        { intros x Hx. pose proof (proj1 (Hp x) Hx) as (A & y & [<-|[]] & C). pose proof (proj1 (Hp o) Hop) as (A' & y & [<-|[]] & C'). pose proof (Uni _ _ _ _ _ _ A C A' C') as P. rewrite P, A' in A. congruence. }
        assert (Lp : length pri = 1%nat).
        { destruct pri as [|x [|y l]]; [inversion Hop|reflexivity|]. exfalso. cbn [Core.pks map] in NDp. inversion NDp as [|? ? N1 _]; subst. apply N1. left. rewrite (All x (or_introl eq_refl)), (All y (or_intror (or_introl eq_refl))). reflexivity. }
        assert (Lo : length ob = 1%nat).
        { destruct ob as [|[n x] [|[m y] l]]; [inversion Ho|reflexivity|]. exfalso. inversion NDo as [|? ? N1 _]; subst. apply N1. left.
          pose proof (All x (Op n x (or_introl eq_refl))) as E1. pose proof (All y (Op m y (or_intror (or_introl eq_refl)))) as E2. subst x y. f_equal. apply (O1 m n o); [right; left; reflexivity|left; reflexivity]. }
        rewrite Lp, Lo. reflexivity.
    + apply (ins_update ev s 0 (R st) r (pk o) 0 o); [reflexivity|exact Sig|exact Od|exact Fc|].
      assert (Nf : ~ others_free tb every (R st) (pk o) nw) by (intros Y; apply X; apply Eqv; exact Y).
      destruct (stored_clash_dec tb (fun q => if cells_dec q (pk o) then None else R st q) (map fst (st_rows st)) nw) as [(q & e & x & E & C)|Z].
      * intros q e x E. destruct (cells_dec q (pk o)); [discriminate|]. exact (R_dom tb GT st q e x E).
      * destruct (cells_dec q (pk o)) as [|Nq]; [discriminate|]. apply (set_dup ev s 0 (R st) (pk o) 0 o r 2 q e x Nq E). apply (enforced_all tb GT); [exact Sdd|]. rewrite <- upd_set. exact C.
      * exfalso. apply Nf. intros q e x Nq E. apply (Z q e x). destruct (cells_dec q (pk o)); [contradiction|exact E].
Qed.
End OD.
