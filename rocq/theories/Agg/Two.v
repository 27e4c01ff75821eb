(* DISTINCT aggregates and ordered GROUP_CONCAT: the two levels *)
From Coq Require Import List ZArith Bool Lia Sorting.Permutation Sorting.Sorted.
From Verif Require Import Common.Bytes Common.KV Key.Model Key.Spec Agg.Model Agg.Spec Agg.Bits Agg.Sets Agg.Lists Agg.Group Agg.Calls Agg.Steps Agg.Final Agg.Stage Agg.Top.
Import ListNotations.
Local Open Scope Z_scope.

Lemma acc_perm f a b s : Permutation a b -> acc f a s -> acc f b s.
Proof.
  intros P. destruct f as [|es|uns e|e|t e|t e|o e|e|sep es|sep es keys|sum t e]; cbn [acc]; try (apply spec_perm, P).
  - intros ->. pose proof (nonnull_perm e _ _ P) as Q. now rewrite (zsum_perm _ _ Q), (Permutation_length Q).
  - destruct o.
    + intros (l & E & B). exists l. split; [exact E|]. eapply bitsof_perm; eauto.
    + pose proof (nonnull_perm e _ _ P) as Q. destruct (nonnull e a) as [|x la] eqn:Ea; destruct (nonnull e b) as [|y lb] eqn:Eb; auto.
      * apply Permutation_nil in Q. discriminate.
      * apply Permutation_sym, Permutation_nil in Q. discriminate.
      * intros (l & E & B). exists l. split; [exact E|]. eapply bitsof_perm; eauto.
    + intros (l & E & B). exists l. split; [exact E|]. eapply bitsof_perm; eauto.
  - intros (l & E & B). exists l. split; [exact E|]. eapply bitsof_perm; eauto.
  - intros (l & N & In0 & E). exists l. split; [exact N|]. split; [|exact E]. intros x. rewrite In0.
    split; apply Permutation_in; [|apply Permutation_sym]; apply nonnull_perm, P.
Qed.

Lemma nonnull_incl {A} (e : row -> option A) a b : incl a b -> incl (nonnull e a) (nonnull e b).
Proof. intros I0 x. unfold nonnull. rewrite !in_flat_map. intros (r & Hr & Hx). exists r. auto. Qed.
Lemma part_ok_incl f a b : incl a b -> part_ok f a -> part_ok f b.
Proof.
  assert (X : forall A (e : row -> option A), incl a b -> nonnull e a <> [] -> nonnull e b <> []).
  { intros A e I0 Hn Eb. apply Hn. pose proof (nonnull_incl e a b I0) as Q. rewrite Eb in Q. destruct (nonnull e a) as [|x l]; [reflexivity|].
    destruct (Q x (or_introl eq_refl)). }
  intros I0. destruct f as [| | | | | |o e| | | |sum t e]; cbn [part_ok]; auto; destruct o; auto.
Qed.

Lemma filter_filter {A} (f g : A -> bool) l : (forall x, In x l -> f x = true -> g x = true) -> filter f (filter g l) = filter f l.
Proof.
  induction l as [|x l IH]; intros Hfg; [reflexivity|]. cbn [filter]. assert (IH' : filter f (filter g l) = filter f l) by (apply IH; intros y Hy; apply Hfg; right; exact Hy).
  destruct (g x) eqn:Eg; cbn [filter]; [now rewrite IH'|]. destruct (f x) eqn:Ef; [|exact IH'].
  rewrite (Hfg x (or_introl eq_refl) Ef) in Eg. discriminate.
Qed.
Lemma filter_split {A} (f : A -> bool) l : Permutation l (filter f l ++ filter (fun x => negb (f x)) l).
Proof.
  induction l as [|x l IH]; [constructor|]. cbn [filter]. destruct (f x); cbn [negb app]; [now constructor|].
  now apply Permutation_cons_app.
Qed.

(* the groups partition the rows *)
Lemma partition_perm G (keys : list (list Z)) : NoDup keys -> forall rows,
  (forall r, In r rows -> exists k, In k keys /\ haskey G k r = true) ->
  Permutation (concat (map (fun k => filter (haskey G k) rows) keys)) rows.
Proof.
  intros N. induction rows as [|r rows IH]; intros Hc.
  - assert (E : forall ks, concat (map (fun k => filter (haskey G k) []) ks) = @nil row) by (induction ks; auto).
    rewrite E. constructor.
  - destruct (Hc r (or_introl eq_refl)) as (k & Hk & Hr). apply in_split in Hk. destruct Hk as (l1 & l2 & ->).
    assert (OFF : forall l, ~ In k l -> map (fun k => filter (haskey G k) (r :: rows)) l = map (fun k => filter (haskey G k) rows) l).
    { intros l Hl. apply map_ext_in. intros k' Hk'. cbn [filter]. destruct (haskey G k' r) eqn:E; [|reflexivity]. exfalso.
      apply haskey_iff in E. apply haskey_iff in Hr. assert (k' = k) by congruence. subst. contradiction. }
    apply NoDup_remove_2 in N. assert (~ In k l1 /\ ~ In k l2) as [N1 N2] by (split; intros X; apply N, in_app_iff; auto).
    rewrite map_app, concat_app. cbn [map concat]. rewrite (OFF l1 N1), (OFF l2 N2). cbn [filter]. rewrite Hr. cbn [app].
    apply Permutation_sym, Permutation_cons_app, Permutation_sym. specialize (IH (fun r0 H0 => Hc r0 (or_intror H0))).
    rewrite map_app, concat_app in IH. exact IH.
Qed.

Lemma firsts_perm {A} (P : list (A * list A)) : (forall p, In p P -> In (fst p) (snd p)) ->
  exists rest, Permutation (concat (map snd P)) (map fst P ++ rest).
Proof.
  induction P as [|[x l] P IH]; intros Hi; [exists []; constructor|].
  destruct IH as (rest & IH); [intros p Hp; apply Hi; right; exact Hp|].
  pose proof (Hi _ (or_introl eq_refl)) as Hx. cbn [fst snd] in Hx. apply in_split in Hx. destruct Hx as (l1 & l2 & ->).
  exists (l1 ++ l2 ++ rest). cbn [map concat fst snd app]. rewrite <- app_assoc. cbn [app].
  apply Permutation_sym, Permutation_cons_app, Permutation_sym. rewrite IH, (app_assoc l1 l2), (app_assoc l1 l2 rest).
  rewrite (app_assoc (l1 ++ l2)), (app_assoc (map fst P)). apply Permutation_app_tail, Permutation_app_comm.
Qed.

Lemma acc_inner f R s : acc (inner_fn f) R s -> acc f R s.
Proof. destruct f; auto. Qed.
Lemma fits_inner f R : fits f R -> fits (inner_fn f) R.
Proof. destruct f; auto. intros _. exact I. Qed.
Lemma part_inner f R : part_ok f R -> part_ok (inner_fn f) R.
Proof. destruct f; auto. Qed.
Lemma sent_inner c R m : sent_ok true (Call (c_slot c) (inner_fn (c_fn c)) false) R m -> acc (c_fn c) R (m_int m (c_slot c)).
Proof. intros [A _]. cbn [c_fn c_slot] in A. apply acc_inner. destruct (c_fn c); exact A. Qed.

Lemma groupable_app gs hs r : groupable (gs ++ hs) r -> groupable gs r.
Proof.
  intros [A B]. split; [intros t e v Hi; apply A, in_app_iff; auto|]. intros t e Hi. apply (B t e). rewrite skipn_app. apply in_app_iff; auto.
Qed.
Lemma same_keys keys (extra : groups) r r' : (forall t e asc, In (t, e, asc) keys -> In (t, e) extra) -> same_group extra r r' = true ->
  order_compare keys r r' = Eq.
Proof.
  intros Hk Sg. unfold same_group in Sg. rewrite forallb_forall in Sg. induction keys as [|[[t e] asc] keys IH]; [reflexivity|]. cbn [order_compare].
  specialize (Sg (t, e) (Hk t e asc (or_introl eq_refl))). cbn [fst snd] in Sg.
  assert (E : column_compare t asc (e r) (e r') = Eq).
  { unfold column_compare, same_column in *. destruct (e r) as [v|], (e r') as [w|]; try discriminate; [|destruct asc; reflexivity].
    destruct (value_compare t v w); try discriminate. destruct asc; reflexivity. }
  rewrite E. apply IH. intros t0 e0 a0 H0. apply (Hk t0 e0 a0). right; exact H0.
Qed.
Lemma nodup_slots_filter (cs : list call) f : NoDup (map c_slot cs) -> NoDup (map c_slot (filter f cs)).
Proof.
  induction cs as [|c cs IH]; cbn [map filter]; intros N; [constructor|]. inversion N as [|? ? Hn N']; subst. destruct (f c); [|auto].
  cbn [map]. constructor; [|auto]. intros X. apply Hn. apply in_map_iff in X. destruct X as (d & E & Hd). apply filter_In in Hd.
  rewrite <- E. apply in_map. tauto.
Qed.
Lemma inner_slots cs : map c_slot (inner_calls cs) = map c_slot (filter (fun c => negb (c_distinct c)) cs).
Proof. unfold inner_calls. rewrite map_map. reflexivity. Qed.
Lemma slot_unique (cs : list call) c d : NoDup (map c_slot cs) -> In c cs -> In d cs -> c_slot c = c_slot d -> c = d.
Proof.
  induction cs as [|x cs IH]; cbn [map In]; intros N; [tauto|]. inversion N as [|? ? Hn N']; subst.
  intros [<-|Hc] [<-|Hd] E; auto; exfalso; apply Hn; [rewrite E|rewrite <- E]; now apply in_map.
Qed.

Theorem two_ok gs extra cs regions :
  (forall c, In c cs -> c_distinct c = true -> extra <> []) -> NoDup (map c_slot cs) -> Forall (groupable (gs ++ extra)) (concat regions) ->
  (forall c, In c cs -> match c_fn c with
      | FMulti _ _ _ => c_distinct c = false
      | FConcatBy _ _ keys => c_distinct c = true \/ forall t e asc, In (t, e, asc) keys -> In (t, e) extra
      | _ => True end) ->
  (forall c r, In c cs -> In r (concat regions) -> fits (c_fn c) (group_of gs r (concat regions))) ->
  (forall c region r, In c cs -> c_distinct c = false -> In region regions -> In r region -> part_ok (c_fn c) (group_of (gs ++ extra) r region)) ->
  (gs = [] -> concat regions = [] -> forall c, In c cs -> match c_fn c with FMulti true _ _ => False | _ => True end) ->
  exists sent, stores (gs ++ extra) (inner_calls cs) regions = Some sent /\ forall arrived, Permutation sent arrived ->
    exists out, two_level gs extra cs arrived = Some out /\
      answer gs (concat regions) (fun rows m => forall c, In c cs ->
        if c_distinct c then exists reps, one_per extra rows reps /\ agg_spec (c_fn c) reps (result c m)
        else agg_spec (c_fn c) rows (result c m)) out.
Proof.
  intros Hx Hsl HG Hshape Hf Hp Hmul. set (G := gs ++ extra) in *. set (all := concat regions) in *.
  assert (Hgs : Forall (groupable gs) all) by (eapply Forall_impl; [|exact HG]; intros r; apply groupable_app).
  pose proof HG as HG'. rewrite Forall_forall in HG'. pose proof Hgs as Hgs'. rewrite Forall_forall in Hgs'.
  assert (GSUB : forall r r', same_group G r r' = true -> same_group gs r r' = true /\ same_group extra r r' = true).
  { intros r r' E. unfold G in E. rewrite same_group_app in E. now apply andb_true_iff in E. }
  destruct (split_ok G (inner_calls cs)) with (regions := regions) as (sent & Es & Ha).
  - rewrite inner_slots. now apply nodup_slots_filter.
  - exact HG.
  - intros c Hc. unfold inner_calls in Hc. apply in_map_iff in Hc. destruct Hc as (d & <- & Hd). split; [reflexivity|].
    unfold no_by. cbn [c_fn]. destruct (c_fn d); exact I.
  - intros c r Hc Hr. unfold inner_calls in Hc. apply in_map_iff in Hc. destruct Hc as (d & <- & Hd). apply filter_In in Hd. cbn [c_fn].
    apply fits_inner. specialize (Hf d r (proj1 Hd) Hr).
    assert (Eg : group_of G r all = filter (same_group G r) (group_of gs r all)).
    { unfold group_of. symmetry. apply filter_filter. intros x _ Ex. now apply GSUB. }
    fold all. rewrite Eg. eapply fits_perm in Hf; [|apply (filter_split (same_group G r))]. now apply fits_app in Hf.
  - intros c rg r Hc Irg Hr. unfold inner_calls in Hc. apply in_map_iff in Hc. destruct Hc as (d & <- & Hd). apply filter_In in Hd. destruct Hd as [Hd Hdi]. cbn [c_fn].
    apply part_inner. apply Hp; auto. now apply negb_true_iff.
  - intros EG Er c Hc. unfold inner_calls in Hc. apply in_map_iff in Hc. destruct Hc as (d & <- & Hd). apply filter_In in Hd. cbn [c_fn].
    unfold G in EG. apply app_eq_nil in EG. specialize (Hmul (proj1 EG) Er d (proj1 Hd)). destruct (c_fn d); auto.
  - exists sent. split; [exact Es|]. intros arrived P. destruct (Ha arrived P) as (mid & Em & An & Mid). unfold two_level. fold G. rewrite Em.
    destruct Mid as [(hm & Emid & N & Hm0 & Hc0)|(EG & Hno & m0 & Emid & Hini)]; cycle 1.
    { (* nothing to aggregate, in the two levels *)
      unfold G in EG. apply app_eq_nil in EG. destruct EG as [Eg Ex]. subst gs extra. fold all in Hno.
      assert (Hd : forall c, In c cs -> c_distinct c = false).
      { intros c Hc. destruct (c_distinct c) eqn:E; [|reflexivity]. exfalso. now apply (Hx c Hc). }
      assert (Hc' : forall c, In c cs -> In (Call (c_slot c) (inner_fn (c_fn c)) false) (inner_calls cs)).
      { intros c Hc. unfold inner_calls. apply (in_map (fun c => Call (c_slot c) (inner_fn (c_fn c)) false)). apply filter_In. split; [exact Hc|]. now rewrite (Hd c Hc). }
      assert (DROP : stage true true [] cs mid = stage true true [] cs []).
      { rewrite Emid. unfold stage. cbn [agg_rows]. unfold agg_row. destruct (group_key [] (m_src m0)) as [k|] eqn:Ek; [|unfold group_key in Ek; cbn in Ek; discriminate].
        cbn [hfind]. assert (forallb (fun c => is_initialize c m0) cs = true) as ->; [|reflexivity]. apply forallb_forall. intros c Hc.
        specialize (Hini _ (Hc' c Hc)). unfold is_initialize in *. cbn [c_distinct c_slot c_fn] in Hini. rewrite (Hd c Hc).
        destruct (m_int m0 (c_slot c)) as [v|]; [|reflexivity]. destruct (c_fn c); exact Hini. }
      assert (NOALL : forall c, In c cs -> nothing (c_fn c) all).
      { intros c Hc. specialize (Hno _ (Hc' c Hc)). cbn [c_fn] in Hno. destruct (c_fn c); exact Hno. }
      assert (NM : forall c, In c cs -> match c_fn c with FMulti true _ _ => False | _ => True end).
      { intros c Hc. destruct all as [|r all'] eqn:Eall; [now apply Hmul|]. specialize (NOALL c Hc).
        assert (Hr : In r (concat regions)) by (fold all; rewrite Eall; left; reflexivity). apply in_concat in Hr. destruct Hr as (rg & Irg & Hrg).
        specialize (Hp c rg r Hc (Hd c Hc) Irg Hrg). apply (part_ok_incl _ _ (r :: all')) in Hp.
        - destruct (c_fn c) as [| | | | | | | | | |[] t e]; auto; cbn [part_ok nothing] in *; contradiction.
        - intros x Hxr. apply filter_In in Hxr. rewrite <- Eall. unfold all. apply in_concat. exists rg. tauto. }
      destruct (stage_ok true [] cs Hsl []) as (out & Eo & D); [constructor|intros k c Hc; apply fits_nil|intros _ _ _; exact NM|]. cbn [map] in Eo.
      exists out. rewrite DROP. split; [exact Eo|]. destruct D as [(hm & _ & _ & Hm & _ & Hne)|(_ & _ & _ & m & Em2 & Hs)].
      - exfalso. specialize (Hne eq_refl eq_refl). destruct hm as [|[k m] hm]; [contradiction|]. destruct (Hm k m (or_introl eq_refl)) as (_ & (p & [] & _) & _).
      - exists m. split; [exact Em2|]. intros c Hc. rewrite (Hd c Hc). apply Hs; [exact Hc|now apply NOALL]. }
    fold all in An, Hm0, Hc0.
    assert (Hm : forall k m, In (k, m) hm -> group_key G (m_src m) = Some k /\ (forall s, ~ In s (map c_slot (inner_calls cs)) -> m_int m s = None) /\
           forall c, In c (inner_calls cs) -> exists R, Permutation R (filter (haskey G k) all) /\ sent_ok true c R m) by (intros k m Hi; now apply (Hm0 k m Hi)).
    assert (HR : forall k m, In (k, m) hm -> In (m_src m) all) by (intros k m Hi; now apply (Hm0 k m Hi)).
    assert (Cov : forall r, In r all -> exists m, In m mid /\ same_group G r (m_src m) = true).
    { intros r Hr. destruct (Hc0 r Hr) as (k & Ek & Ik). apply in_map_iff in Ik. destruct Ik as ([k' m] & E & Hi). cbn [fst] in E. subst k'.
      exists m. split; [rewrite Emid; change m with (snd (k, m)); now apply in_map|]. rewrite <- (key_same G r (m_src m) k); [apply haskey_iff, (Hm k m Hi)|auto|apply HG'; eapply HR; eauto|exact Ek]. }
    assert (COV : forall r, In r all -> exists k m, In (k, m) hm /\ haskey G k r = true /\ same_group G r (m_src m) = true).
    { intros r Hr. destruct (Cov r Hr) as (m & Hi & Sg). rewrite Emid in Hi. apply in_map_iff in Hi. destruct Hi as ([k m'] & E & Hi). cbn [snd] in E. subst m'.
      exists k, m. split; [exact Hi|]. split; [|exact Sg]. destruct (Hm k m Hi) as (Ek & _). rewrite (key_same G (m_src m) r k); [now rewrite same_group_sym| | |exact Ek]; apply HG'; [eapply HR; eauto|exact Hr]. }
    set (rows_of := fun (km : list Z * mrow) (c : call) => if c_distinct c then [m_src (snd km)] else filter (haskey G (fst km)) all).
    set (ps := map (fun km => (snd km, rows_of km)) hm).
    (* the rows of the outer groups *)
    set (L := fun k => filter (fun km : list Z * mrow => haskey gs k (m_src (snd km))) hm).
    assert (RK : forall k c, rowsk gs k c ps = concat (map (fun km => rows_of km c) (L k))).
    { intros k c. unfold rowsk, ps, L. f_equal. clear. induction hm as [|km l IH]; [reflexivity|]. cbn [map filter]. unfold of_key at 1. cbn [fst]. unfold haskey at 1.
      destruct (group_key gs (m_src (snd km))) as [k'|]; [|exact IH]. destruct (beqb k k'); [|exact IH]. cbn [map snd]. now rewrite IH. }
    assert (GK : forall k km r, In km (L k) -> In r all -> haskey G (fst km) r = true -> haskey gs k r = true /\ same_group G (m_src (snd km)) r = true).
    { intros k [k' m] r Hi Hr Hk. unfold L in Hi. apply filter_In in Hi. destruct Hi as [Hi Hgk]. cbn [fst snd] in *. destruct (Hm k' m Hi) as (Ek & _).
      pose proof (HR k' m Hi) as Hma. rewrite (key_same G (m_src m) r k') in Hk; [|auto|auto|exact Ek]. split; [|exact Hk].
      apply haskey_iff in Hgk. rewrite (key_same gs (m_src m) r k); [now apply GSUB|auto|auto|exact Hgk]. }
    assert (LN : forall k, NoDup (map fst (L k))).
    { intros k. unfold L. clear - N. induction hm as [|x l IH]; [constructor|]. cbn [map filter] in *. inversion N as [|? ? Hn N']; subst.
      destruct (haskey gs k (m_src (snd x))); [|auto]. cbn [map]. constructor; [|auto]. intros X. apply Hn. apply in_map_iff in X. destruct X as (y & E & Hy).
      apply filter_In in Hy. rewrite <- E. apply in_map. tauto. }
    assert (LC : forall k r, In r (filter (haskey gs k) all) -> exists km, In km (L k) /\ haskey G (fst km) r = true /\ same_group G r (m_src (snd km)) = true).
    { intros k r Hr. apply filter_In in Hr. destruct Hr as [Hr Hk]. destruct (COV r Hr) as (k' & m & Hi & Hkr & Sg). exists (k', m). cbn [fst snd].
      split; [|auto]. unfold L. apply filter_In. split; [exact Hi|]. cbn [snd]. apply haskey_iff in Hk.
      rewrite (key_same gs r (m_src m) k); [now apply GSUB|auto|apply Hgs'; eapply HR; eauto|exact Hk]. }
    assert (PART : forall k, Permutation (concat (map (fun km => filter (haskey G (fst km)) all) (L k))) (filter (haskey gs k) all)).
    { intros k. assert (Q : Permutation (concat (map (fun k' => filter (haskey G k') (filter (haskey gs k) all)) (map fst (L k)))) (filter (haskey gs k) all)).
      { apply partition_perm; [apply LN|]. intros r Hr. destruct (LC k r Hr) as (km & Hi & Hk & _). exists (fst km). split; [now apply in_map|exact Hk]. }
      rewrite map_map in Q. eapply Permutation_trans; [|exact Q]. erewrite map_ext_in; [reflexivity|]. intros km Hi. cbn beta. symmetry. apply filter_filter.
      intros x Hxa Ex. now apply (GK k km x). }
    assert (INSELF : forall km, In km hm -> In (m_src (snd km)) (filter (haskey G (fst km)) all)).
    { intros [k m] Hi. cbn [fst snd]. apply filter_In. split; [eapply HR; eauto|]. apply haskey_iff. now apply (Hm k m Hi). }
    assert (REPS : forall k c, c_distinct c = true -> rowsk gs k c ps = map (fun km => m_src (snd km)) (L k)).
    { intros k c Hd. rewrite RK. unfold rows_of. rewrite Hd. clear. induction (L k) as [|x l IH]; [reflexivity|]. cbn. now rewrite IH. }
    assert (FKA : forall k c, In c cs -> fits (c_fn c) (filter (haskey gs k) all)).
    { intros k c Hc. destruct (filter (haskey gs k) all) as [|r l] eqn:El; [apply fits_nil|]. rewrite <- El.
      assert (Hr0 : In r (filter (haskey gs k) all)) by (rewrite El; left; reflexivity). apply filter_In in Hr0. destruct Hr0 as [Hr0 Hk].
      apply haskey_iff in Hk. rewrite (key_group gs r k _ (Hgs' r Hr0)); [apply Hf; auto|exact Hgs|exact Hk]. }
    destruct (merged gs cs Hsl all ps (fun c a b => if c_distinct c then one_per extra a b else Permutation b a)) as (out & Eo & AnO & _).
    + exact Hgs.
    + rewrite Forall_forall. intros p Hi. unfold ps in Hi. apply in_map_iff in Hi. destruct Hi as ([k m] & <- & Hi). cbn [fst snd].
      destruct (Hm k m Hi) as (Ek & Hother & Hso). pose proof (HR k m Hi) as Hma. split; [apply key_exists; auto|]. intros c Hc. unfold inp, upd, rows_of. cbn [negb orb fst snd].
      destruct (c_distinct c) eqn:Ed.
      * split; [discriminate|]. split; [|split; [reflexivity|]].
        -- apply Hother. rewrite inner_slots. intros X. apply in_map_iff in X. destruct X as (d & E & Hd). apply filter_In in Hd. destruct Hd as [Hd Hdd].
           assert (d = c) by (eapply slot_unique; eauto). subst d. rewrite Ed in Hdd. discriminate.
        -- intros _. specialize (Hshape c Hc). destruct (c_fn c); auto. congruence.
      * split; [intros E0; pose proof (INSELF (k, m) Hi) as X; cbn [fst snd] in X; rewrite E0 in X; destruct X|]. split; [|split].
        -- destruct (Hso (Call (c_slot c) (inner_fn (c_fn c)) false)) as (R & PR & SR).
           { unfold inner_calls. change (Call (c_slot c) (inner_fn (c_fn c)) false) with ((fun c => Call (c_slot c) (inner_fn (c_fn c)) false) c). apply in_map.
             apply filter_In. split; [exact Hc|now rewrite Ed]. }
           eapply acc_perm; [exact PR|]. now apply sent_inner.
        -- specialize (Hshape c Hc). unfold keyed. destruct (c_fn c); auto. destruct Hshape as [Hs|Hs]; [congruence|]. intros r Hr.
           apply filter_In in Hr. destruct Hr as [Hr Hk]. rewrite (key_same G (m_src m) r k) in Hk; [|auto|auto|exact Ek]. eapply same_keys; [exact Hs|]. now apply GSUB.
        -- unfold all in Hma. apply in_concat in Hma. destruct Hma as (rg & Irg & Hrg). apply (part_ok_incl _ (group_of G (m_src m) rg)); [|now apply Hp].
           intros x Hxr. apply filter_In in Hxr. destruct Hxr as [Hxr Hxs]. assert (Hxa : In x all) by (unfold all; apply in_concat; eauto).
           apply filter_In. split; [exact Hxa|]. rewrite (key_same G (m_src m) x k); [exact Hxs|apply HG'; eapply HR; eauto|auto|exact Ek].
    + intros p Hi. unfold ps in Hi. apply in_map_iff in Hi. destruct Hi as ([k m] & <- & Hi). cbn [fst snd]. eapply HR; eauto.
    + intros r Hr. destruct (COV r Hr) as (k & m & Hi & _ & Sg). exists (m, rows_of (k, m)). split.
      * unfold ps. change (m, rows_of (k, m)) with ((fun km => (snd km, rows_of km)) (k, m)). now apply in_map.
      * cbn [fst]. destruct (key_exists gs r (Hgs' r Hr)) as (kr & Er). rewrite Er. apply haskey_iff. rewrite (key_same gs r (m_src m) kr); [now apply GSUB|auto|apply Hgs'; eapply HR; eauto|exact Er].
    + intros k c Hc. destruct (c_distinct c) eqn:Ed.
      * rewrite (REPS k c Ed). split; [|split].
        -- intros r Hr. apply in_map_iff in Hr. destruct Hr as (km & <- & Hi). unfold L in Hi. apply filter_In in Hi. destruct Hi as [Hi Hk]. apply filter_In. split; [|exact Hk].
           destruct km as [k1 m1]. eapply HR; eauto.
        -- intros r Hr. destruct (LC k r Hr) as (km & Hi & _ & Sg). exists (m_src (snd km)). split; [now apply (in_map (fun km => m_src (snd km)))|now apply GSUB].
        -- assert (HL : forall km, In km (L k) -> group_key G (m_src (snd km)) = Some (fst km) /\ In (m_src (snd km)) all /\ group_key gs (m_src (snd km)) = Some k).
           { intros [k1 m1] Hi. unfold L in Hi. apply filter_In in Hi. destruct Hi as [Hi Hk]. cbn [fst snd] in *. split; [now apply (Hm k1 m1 Hi)|]. split; [eapply HR; eauto|now apply haskey_iff]. }
           specialize (LN k). clear - HL LN HG' Hgs'. induction (L k) as [|km l IH]; [constructor|]. cbn [map fst] in *. inversion LN as [|? ? Hn N']; subst.
           constructor; [|apply IH; [exact N'|intros; apply HL; right; assumption]]. rewrite Forall_forall. intros r Hr. apply in_map_iff in Hr. destruct Hr as (km' & <- & Hi).
           destruct (HL km (or_introl eq_refl)) as (E1 & I1 & K1). destruct (HL km' (or_intror Hi)) as (E2 & I2 & K2).
           pose proof (key_same gs _ _ k (Hgs' _ I1) (Hgs' _ I2) K1) as Q. assert (Q2 : haskey gs k (m_src (snd km')) = true) by now apply haskey_iff. rewrite Q2 in Q.
           pose proof (key_same G _ _ (fst km) (HG' _ I1) (HG' _ I2) E1) as W. unfold haskey in W. rewrite E2 in W.
           destruct (beqb (fst km) (fst km')) eqn:B; [apply beqb_eq in B; exfalso; apply Hn; rewrite B; now apply in_map|].
           unfold G in W. rewrite same_group_app, <- Q in W. symmetry. exact W.
      * rewrite RK. unfold rows_of. rewrite Ed. apply PART.
    + intros k c Hc. destruct (c_distinct c) eqn:Ed.
      * rewrite (REPS k c Ed). destruct (firsts_perm (map (fun km => (m_src (snd km), filter (haskey G (fst km)) all)) (L k))) as (rest & PR).
        -- intros p Hi. apply in_map_iff in Hi. destruct Hi as (km & <- & Hi). cbn [fst snd]. apply INSELF. unfold L in Hi. now apply filter_In in Hi.
        -- rewrite !map_map in PR. cbn [fst snd] in PR. pose proof (FKA k c Hc) as FF. eapply fits_perm in FF; [|apply Permutation_sym, PART].
           eapply fits_perm in FF; [|exact PR]. now apply fits_app in FF.
      * rewrite RK. unfold rows_of. rewrite Ed. eapply fits_perm; [apply Permutation_sym, PART|now apply FKA].
    + exact Hmul.
    + exists out. split; [rewrite <- Eo; f_equal; unfold ps; rewrite map_map, Emid; reflexivity|].
      assert (W : forall rows m, (forall c, In c cs -> exists R, (if c_distinct c then one_per extra rows R else Permutation R rows) /\ agg_spec (c_fn c) R (result c m)) ->
        forall c, In c cs -> if c_distinct c then exists reps, one_per extra rows reps /\ agg_spec (c_fn c) reps (result c m) else agg_spec (c_fn c) rows (result c m)).
      { intros rows m X c Hc. destruct (X c Hc) as (R & PR & S0). destruct (c_distinct c); [eauto|eapply spec_perm; eauto]. }
      clear - AnO W. unfold answer in *. destruct gs; [destruct AnO as (m & E & X); exists m; split; [exact E|exact (W _ _ X)]|].
      destruct AnO as (A & B & C). split; [exact A|]. split; [exact B|]. intros m Hm. destruct (C m Hm) as [C1 C2]. split; [exact C1|exact (W _ _ C2)].
Qed.
