(* Reading the levels in any reachable state. *)
From Coq Require Import ZArith List Bool Lia Sorted PeanoNat.
From Verif Require Import Common.Bytes Common.KV Rev.Model Rev.Spec Rev.Order Rev.Proofs Rev.LevelModel Rev.LevelSpec Rev.LevelOrder Rev.LevelMerge Rev.LevelProofs.
Import ListNotations.
Local Open Scope nat_scope.

Lemma mem0_range k : within_range (m_range mem0) k.
Proof. split; left; reflexivity. Qed.

Lemma inv_step c h low s e s' es : inv h low s -> next c s e = Some s' -> orderly (all h) (i_range s) (e :: es) ->
  inv (tell h e) (sink h low e) s' /\ orderly (all (tell h e)) (i_range s') es /\
  (forall k, within_range (i_range s') k -> within_range (i_range s) k).
Proof.
  intros Iv. destruct e; cbn [orderly]; intros E O.
  - destruct O as (F&Sp&Lt&Mo&O). cbn [next] in E. injection E as <-. split; [|split; [exact O|auto]]. apply inv_write; try assumption.
    split; [|exact Sp]. apply Forall_app. split; [apply (v_sound _ _ _ Iv)|exact F].
  - destruct O as (Sub&O). cbn [next] in E. injection E as <-. split; [|split; [exact O|exact Sub]]. apply inv_range; assumption.
  - cbn [next] in E. destruct (m_pass (i_mem s)) eqn:Em; [discriminate|]. injection E as <-. split; [|split; [exact O|auto]]. apply (inv_idle h low s); cbn; auto.
  - cbn [next] in E. destruct (m_pass (i_mem s)) eqn:Em; [discriminate|]. destruct (remove_range (m_range (i_mem s)) t (lv2 (i_lv s))) as [l|] eqn:Er; [|discriminate]. injection E as <-.
    split; [|split; [exact O|auto]]. pose proof Iv as Iv0. destruct Iv0. destruct (remove_ok _ _ _ _ v_two v_asc2 Er) as (K&A&Al).
    apply inv_removed; auto.
  - cbn [next] in E. destruct (m_pass (i_mem s)) eqn:Em; [discriminate|]. destruct (remove_range (m_range (i_mem s)) t (lv3 (i_lv s))) as [l|] eqn:Er; [|discriminate]. injection E as <-.
    split; [|split; [exact O|auto]]. pose proof Iv as Iv0. destruct Iv0. destruct (remove_ok _ _ _ _ v_three v_asc3 Er) as (K&A&Al).
    apply inv_removed; auto.
  - cbn [next] in E. destruct (m_pass (i_mem s)) eqn:Em; [discriminate|]. injection E as <-. split; [|split; [exact O|auto]]. apply inv_begin; auto.
  - cbn [next] in E. destruct (m_pass (i_mem s)) as [[[|[r n] rest] [|]]|] eqn:Em; try discriminate E. destruct (beqb (cstr r) t) eqn:B; [|discriminate E]. apply beqb_eq in B. subst t.
    destruct (to2 c (m_range (i_mem s)) ((r, n) :: rest) (i_lv s)) as [[lv' p]|] eqn:Et; [|discriminate E]. injection E as <-. split; [|split; [exact O|auto]]. eapply inv_to2; eauto.
  - cbn [next] in E. destruct (m_pass (i_mem s)) as [[rest [[t' l]|]]|] eqn:Em; try discriminate E. destruct (beqb t' t) eqn:B; [|discriminate E]. apply beqb_eq in B. subst t'.
    destruct (to3 (m_range (i_mem s)) t l (i_lv s)) as [lv'|] eqn:Et; [|discriminate E]. injection E as <-. split; [|split; [exact O|auto]]. eapply inv_to3; eauto.
  - cbn [next] in E. destruct (m_pass (i_mem s)) as [[[|] [|]]|] eqn:Em; try discriminate E. injection E as <-. split; [|split; [exact O|auto]]. apply inv_end; auto.
  - cbn [next] in E. injection E as <-. split; [|split; [exact O|auto]]. apply (inv_idle h low s); cbn; auto. apply (v_range _ _ _ Iv).
  - cbn [next] in E. injection E as <-. split; [|split; [exact O|auto]]. apply (inv_idle h low s); cbn [i_lv i_range i_mem m_pass mem0]; auto. intros k _. apply mem0_range.
  - cbn [next] in E. assert (X : i_lv s' = i_lv s /\ i_range s' = i_range s /\ m_pass (i_mem s') = m_pass (i_mem s) /\ m_range (i_mem s') = m_range (i_mem s)).
    { destruct (kget t (m_cache (i_mem s))); [injection E as <-; auto|]. destruct (kget t (lv3 (i_lv s))); [|injection E as <-; auto]. destruct (over_cache c && (cached_length c <=? length l)); injection E as <-; auto. }
    destruct X as (X1&X2&X3&X4). rewrite X2. split; [|split; [exact O|auto]]. apply (inv_frame h low s); auto.
  - cbn [next] in E. destruct (existsb _ _); [|discriminate E]. injection E as <-. split; [|split; [exact O|auto]]. apply (inv_frame h low s); auto.
  - cbn [next] in E. injection E as <-. split; [|split; [exact O|auto]]. apply (inv_frame h low s); auto.
Qed.

Fixpoint sinks (h : story) (low : term -> nat) (es : list event) : term -> nat :=
  match es with [] => low | e :: r => sinks (tell h e) (sink h low e) r end.

Lemma inv_run c es : forall h low s s', inv h low s -> history c s es = Some s' -> orderly (all h) (i_range s) es ->
  inv (fold_left tell es h) (sinks h low es) s' /\ forall k, within_range (i_range s') k -> within_range (i_range s) k.
Proof.
  induction es as [|e es IH]; intros h low s s' Iv E O; [injection E as <-; auto|]. cbn [history] in E. destruct (next c s e) as [s1|] eqn:E1; [|discriminate E].
  destruct (inv_step c h low s e s1 es Iv E1 O) as (Iv1&O1&Sub1). destruct (IH _ _ _ _ Iv1 E O1) as [Iv2 Sub2]. split; [exact Iv2|auto].
Qed.
Lemma orderly_run c a : forall b h low s s', inv h low s -> history c s a = Some s' -> orderly (all h) (i_range s) (a ++ b) ->
  orderly (all h) (i_range s) a /\ orderly (all (fold_left tell a h)) (i_range s') b.
Proof.
  induction a as [|e a IH]; intros b h low s s' Iv E O; [injection E as <-; split; [exact Logic.I|exact O]|]. cbn [history] in E. destruct (next c s e) as [s1|] eqn:E1; [|discriminate E].
  destruct (inv_step c h low s e s1 (a ++ b) Iv E1 O) as (Iv1&O1&_). destruct (IH _ _ _ _ _ Iv1 E O1) as [P Q]. split; [|exact Q].
  destruct e; cbn [orderly app] in *; cbn [tell all] in P; try exact P; cbn [next] in E1;
  try (destruct (m_pass (i_mem s)) as [[[|[? ?] ?] [[? ?]|]]|]; try discriminate E1); try (injection E1 as <-; exact P).
  all: try (destruct O as (O1'&O2'&O3'&O4'&_); injection E1 as <-; cbn [set_lv i_range] in P; auto; fail).
  all: try (destruct O as (O1'&_); injection E1 as <-; auto; fail).
  all: repeat match type of E1 with context [if ?b then _ else _] => destruct b; try discriminate E1 | context [match ?x with _ => _ end] => destruct x; try discriminate E1 end; injection E1 as <-; exact P.
Qed.

Lemma inv_start rg : inv story0 (fun _ => 0) (empty_index rg).
Proof.
  constructor; cbn [story0 all began shown empty_index i_lv i_range i_mem lv1 lv2 lv3 m_pass mem0].
  - split; [constructor|intros v w []].
  - constructor.
  - apply le_n.
  - intros v w [].
  - intros t. apply le_n.
  - intros t. apply le_n.
  - split; [constructor|]. intros r n. split; [intros []|]. intros (t&k&x&d&_&_&E). discriminate E.
  - constructor.
  - constructor.
  - intros t. constructor.
  - intros t. constructor.
  - intros k _. apply mem0_range.
  - exact Logic.I.
  - intros t k _. split; reflexivity.
Qed.

Lemma inv_history c rg es s : history c (empty_index rg) es = Some s -> orderly [] rg es ->
  inv (told es) (sinks story0 (fun _ => 0) es) s.
Proof. intros E O. apply (inv_run c es story0 (fun _ => 0) (empty_index rg) s (inv_start rg) E O). Qed.

(* ---- the executors on two lists ---- *)
Definition doc (new old : list node) (k : key) : bool :=
  match entry new k with Some d => negb d | None => match entry old k with Some false => true | _ => false end end.

Lemma term_doc rg new old k : ascending new -> ascending old -> within_range rg k ->
  (matches (fst rg) (snd rg) (QTerm new old) k <-> doc new old k = true).
Proof.
  intros An Ao R. cbn [matches]. unfold doc, entry_of. destruct (entry new k) as [d|] eqn:En.
  - rewrite negb_true_iff. split.
    + intros (_&n&(K&[X|[_ X]])&D).
      * assert (Y : entry new k = Some (ndel n)) by (apply entry_some; eauto). congruence.
      * exfalso. apply entry_some in En; [|exact An]. destruct En as (m&Im&Km&_). apply (X m Im Km).
    + intros ->. split; [exact R|]. apply entry_some in En; [|exact An]. destruct En as (m&Im&Km&Dm). exists m. auto.
  - pose proof (proj1 (entry_none_iff new k) En) as No. split.
    + intros (_&n&(K&[X|[X _]])&D); [exfalso; apply (No n X K)|]. rewrite (proj2 (entry_some old k (ndel n) Ao)) by eauto. rewrite D. reflexivity.
    + destruct (entry old k) as [[]|] eqn:Eo; try discriminate. intros _. split; [exact R|]. apply entry_some in Eo; [|exact Ao]. destruct Eo as (m&Im&Km&Dm). exists m. auto.
Qed.

Lemma answers_same rg new old yes k : (forall t, ascending (new t)) -> (forall t, ascending (old t)) -> within_range rg k ->
  (forall t, doc (new t) (old t) k = yes t) -> forall f, matches (fst rg) (snd rg) (query_of new old f) k <-> satisfies yes f.
Proof.
  intros An Ao R D. fix IH 1. intros [t|fs|fs]; cbn [query_of satisfies].
  - rewrite term_doc by auto. rewrite D. reflexivity.
  - cbn [matches]. apply ZifyClasses.and_morph.
    + destruct fs; split; intros X Y; try discriminate Y; apply X; reflexivity.
    + induction fs as [|f fs IHl]; cbn; [reflexivity|]. apply ZifyClasses.and_morph; [apply IH|exact IHl].
  - cbn [matches]. induction fs as [|f fs IHl]; cbn; [reflexivity|]. apply ZifyClasses.or_morph; [apply IH|exact IHl].
Qed.

Lemma query_stored new old : (forall t, ascending (new t)) -> (forall t, ascending (old t)) -> forall f, stored (query_of new old f).
Proof.
  intros An Ao. fix IH 1. intros [t|fs|fs]; cbn [query_of stored]; [auto| |]; (induction fs as [|f fs IHl]; cbn; [exact Logic.I|split; [apply IH|exact IHl]]).
Qed.

(* level 2 over level 3 *)
Lemma fast_doc h low s t k : inv h low s -> within_range (i_range s) k -> doc (recent_fast s t) (list_at t (lv3 (i_lv s))) k = holds (visible h t) t k.
Proof.
  intros Iv R. destruct (v_lists _ _ _ Iv t k R) as [A B]. unfold doc, recent_fast, visible. rewrite B. destruct (entry (list_at t (lv2 (i_lv s))) k); [reflexivity|]. symmetry. exact A.
Qed.

(* level 1 over level 2 over level 3, if the iterator over level 1 has the store *)
Lemma full_doc h low s t : inv h low s -> nz t -> exists l, recent_full true s t = Some l /\ ascending l /\
  forall k, within_range (i_range s) k -> doc l (list_at t (lv3 (i_lv s))) k = holds (all h) t k.
Proof.
  intros Iv Ht. pose proof Iv as Iv0. destruct Iv0. unfold recent_full. set (rg := m_range (i_mem s)) in *. set (l := kseek t (lv1 (i_lv s))).
  destruct (merge12_ok t rg l (list_at t (lv2 (i_lv s))) (v_asc2 t)) as (i&b&Eq&_). rewrite Eq. cbv iota beta. eexists. split; [reflexivity|].
  set (ws := fun u => if bleb t u then skipn (shown h u) (all h) else []).
  assert (Wi : within ws (all h)). { intros u w. unfold ws. destruct (bleb t u); [apply skipn_in|intros []]. }
  assert (St : stored1 l ws).
  { destruct v_one as [K S1]. split; [apply kfilter_sorted; exact K|]. intros r n. unfold l, kseek, kfilter. rewrite filter_In, S1. cbn [fst]. unfold ws. split.
    - intros [(u&k&x&d&->&->&E) B]. exists u, k, x, d. do 2 (split; [reflexivity|]). destruct (at_raw_facts _ (all h) u k x d v_sound (within_skip (shown h) _) E) as (P&_).
      rewrite seek_raw in B by (try assumption; apply plain_nz; assumption). rewrite B. exact E.
    - intros (u&k&x&d&->&->&E). destruct (bleb t u) eqn:B; [|discriminate E]. split; [exists u, k, x, d; auto|].
      destruct (at_raw_facts _ (all h) u k x d v_sound (within_skip (shown h) _) E) as (P&_). rewrite seek_raw by (try assumption; apply plain_nz; assumption). exact B. }
  assert (Bt : bleb t t = true) by (unfold bleb; rewrite bcompare_refl; reflexivity).
  assert (Fr : forall r n, In (r, n) l -> upto t (cstr r)).
  { intros r n I1. apply St in I1. destruct I1 as (u&k&x&d&->&_&E). destruct (at_raw_facts ws (all h) u k x d v_sound Wi E) as (P&_). rewrite raw_term by (apply plain_nz; exact P).
    unfold ws in E. destruct (bleb t u) eqn:B; [|discriminate E]. unfold bleb in B. unfold upto. destruct (bcompare t u); congruence. }
  assert (Mo : mono (ws t)) by (unfold ws; rewrite Bt; apply mono_skipn; assumption).
  destruct (ours_ok ws (all h) rg t l v_sound Wi Mo St Ht Fr) as [Ao Eo].
  split; [apply mrg_asc; [exact Ao|apply filter_asc; auto]|]. intros k R. unfold doc. rewrite entry_mrg by (try assumption; apply filter_asc; auto). rewrite Eo by (apply v_range; exact R).
  unfold ws. rewrite Bt. rewrite <- (firstn_skipn (shown h t) (all h)) at 2. rewrite holds_app. destruct (lastop (skipn (shown h t) (all h)) t k); [reflexivity|].
  rewrite entry_filter_key by (intros m _ <-; apply inside_in; apply v_range; exact R). apply (fast_doc h low s t k Iv R).
Qed.

(* ---- reading level 2 now and level 3 later ---- *)
Lemma shown_step c h low s e s' es t : inv h low s -> next c s e = Some s' -> orderly (all h) (i_range s) (e :: es) ->
  shown h t <= shown (tell h e) t /\ (sink h low e t = low t \/ shown h t <= sink h low e t) /\ exists more, all (tell h e) = all h ++ more.
Proof.
  intros Iv E O. pose proof (v_shown _ _ _ Iv t) as Sh. destruct e; cbn [tell sink all shown began]; (split; [try lia; try exact Sh|split; [auto|try (exists []; rewrite app_nil_r; reflexivity)]]); try (eexists; reflexivity).
  - destruct (beqb t t0); lia.
  - destruct (beqb t t0); [right; lia|left; reflexivity].
Qed.
Lemma shown_run c es : forall h low s s' t, inv h low s -> history c s es = Some s' -> orderly (all h) (i_range s) es ->
  shown h t <= shown (fold_left tell es h) t /\ (sinks h low es t = low t \/ shown h t <= sinks h low es t) /\ exists more, all (fold_left tell es h) = all h ++ more.
Proof.
  induction es as [|e es IH]; intros h low s s' t Iv E O; [cbn; split; [lia|split; [left; reflexivity|exists []; rewrite app_nil_r; reflexivity]]|]. cbn [history] in E. destruct (next c s e) as [s1|] eqn:E1; [|discriminate E].
  destruct (inv_step c h low s e s1 es Iv E1 O) as (Iv1&O1&_). destruct (shown_step c h low s e s1 es t Iv E1 O) as (A&B&m1&C).
  destruct (IH _ _ _ _ t Iv1 E O1) as (A'&B'&m2&C'). cbn [fold_left sinks]. split; [lia|]. split; [|exists (m1 ++ m2); rewrite C', C, app_assoc; reflexivity].
  destruct B' as [->|B']; [exact B|right; lia].
Qed.


(* ---- the cache ---- *)
Definition cache_ok (s : index) : Prop :=
  ksorted (m_cache (i_mem s)) /\
  forall t l, kget t (m_cache (i_mem s)) = Some l ->
    (In t (m_stale (i_mem s)) /\ m_pass (i_mem s) <> None) \/
    (ascending l /\ forall k, within_range (i_range s) k -> entry l k = entry (list_at t (lv3 (i_lv s))) k).

Lemma cache_frame s s' : cache_ok s -> m_cache (i_mem s') = m_cache (i_mem s) ->
  (m_pass (i_mem s) = None \/ (m_stale (i_mem s') = m_stale (i_mem s) /\ m_pass (i_mem s') <> None) \/ m_stale (i_mem s) = []) ->
  (forall k, within_range (i_range s') k -> within_range (i_range s) k) ->
  (forall t k, within_range (i_range s') k -> entry (list_at t (lv3 (i_lv s'))) k = entry (list_at t (lv3 (i_lv s))) k) -> cache_ok s'.
Proof.
  intros [K C] E P Sub L. unfold cache_ok. rewrite E. split; [exact K|]. intros t l G. destruct (C t l G) as [[X Y]|[A B]].
  - left. destruct P as [P|[[P Q]|P]]; [contradiction|rewrite P; auto|rewrite P in X; destruct X].
  - right. split; [exact A|]. intros k R. rewrite L by exact R. apply B. auto.
Qed.

Lemma drop_all ts : forall (q : kv (list node)), ksorted q -> ksorted (fold_left (fun q t => kdel t q) ts q) /\
  forall t l, kget t (fold_left (fun q t => kdel t q) ts q) = Some l -> kget t q = Some l /\ ~ In t ts.
Proof.
  induction ts as [|u ts IH]; intros q K; [cbn; auto|]. cbn [fold_left]. destruct (IH (kdel u q) (kfilter_sorted _ _ K)) as [K1 D]. split; [exact K1|].
  intros t l G. destruct (D t l G) as [G1 N]. unfold kdel in G1. rewrite kget_filter in G1 by exact K. destruct (beqb t u) eqn:B; cbn [negb] in G1; [discriminate|]. split; [exact G1|].
  intros [<-|X]; [rewrite (proj2 (beqb_eq _ _) eq_refl) in B; discriminate|contradiction].
Qed.

Lemma cache_step c h low s e s' es : over_cache c = true -> inv h low s -> next c s e = Some s' -> orderly (all h) (i_range s) (e :: es) ->
  calm c s (e :: es) -> cache_ok s -> cache_ok s'.
Proof.
  intros Oc Iv E O [Ca _] Co. pose proof (inv_step c h low s e s' es Iv E O) as (Iv'&_&Sub). pose proof Iv as Iv0. destruct Iv0. destruct e; cbn [next] in E.
  - injection E as <-. destruct (m_pass (i_mem s)) eqn:Em.
    + apply (cache_frame s); auto; cbn [set_lv i_mem i_lv]; [right; left; rewrite Em; split; [reflexivity|discriminate]|]. intros t k _. rewrite (proj2 (writes_other ws (i_lv s))). reflexivity.
    + apply (cache_frame s); auto; cbn [set_lv i_mem i_lv]. intros t k _. rewrite (proj2 (writes_other ws (i_lv s))). reflexivity.
  - injection E as <-. apply (cache_frame s); auto; cbn [i_mem]. destruct (m_pass (i_mem s)); [right; left; split; [reflexivity|discriminate]|left; reflexivity].
  - destruct (m_pass (i_mem s)) eqn:Em; [discriminate|]. injection E as <-. apply (cache_frame s); auto.
  - destruct (m_pass (i_mem s)) eqn:Em; [discriminate|]. destruct (remove_range (m_range (i_mem s)) t (lv2 (i_lv s))) as [l|] eqn:Er; [|discriminate]. injection E as <-. apply (cache_frame s); auto.
  - destruct (m_pass (i_mem s)) eqn:Em; [discriminate|]. destruct (remove_range (m_range (i_mem s)) t (lv3 (i_lv s))) as [l|] eqn:Er; [|discriminate]. injection E as <-.
    destruct (remove_ok _ _ _ _ v_three v_asc3 Er) as (K&A&Al). apply (cache_frame s); auto.
  - destruct (m_pass (i_mem s)) eqn:Em; [discriminate|]. injection E as <-. apply (cache_frame s); auto.
  - destruct (m_pass (i_mem s)) as [[[|[r n] rest] [|]]|] eqn:Em; try discriminate E. destruct (beqb (cstr r) t) eqn:B; [|discriminate E].
    destruct (to2 c (m_range (i_mem s)) ((r, n) :: rest) (i_lv s)) as [[lv' p]|] eqn:Et; [|discriminate E]. injection E as <-.
    assert (L3 : lv3 lv' = lv3 (i_lv s)). { unfold to2 in Et. destruct (level_merge _ _ _) as [[[res [i|]] ?]|]; try discriminate Et. injection Et as <- _. reflexivity. }
    apply (cache_frame s); auto; cbn [set_pass i_mem m_stale m_pass i_lv]; [right; left; split; [reflexivity|discriminate]|]. rewrite L3. reflexivity.
  - destruct (m_pass (i_mem s)) as [[rest [[t' l]|]]|] eqn:Em; try discriminate E. destruct (beqb t' t) eqn:B; [|discriminate E]. apply beqb_eq in B. subst t'.
    destruct (to3 (m_range (i_mem s)) t l (i_lv s)) as [lv'|] eqn:Et; [|discriminate E]. injection E as <-. rewrite Oc. destruct Co as [K C]. split; [exact K|]. cbn [i_mem m_cache m_stale m_pass i_range i_lv].
    intros u q G. destruct (beqb u t) eqn:B; [left; apply beqb_eq in B; subst; split; [apply in_app_iff; right; left; reflexivity|discriminate]|].
    destruct (C u q G) as [[X _]|[A D]]; [left; split; [apply in_app_iff; left; exact X|discriminate]|right; split; [exact A|]]. intros k R. rewrite D by exact R.
    unfold to3 in Et. destruct (level_merge _ _ _) as [[[res ?] ?]|]; [|discriminate Et]. cbv iota beta in Et. assert (E3 : lv3 lv' = match res with [] => kdel t (lv3 (i_lv s)) | _ => kput t res (lv3 (i_lv s)) end) by (injection Et as <-; reflexivity).
    rewrite E3, list_at_store by assumption. rewrite B. reflexivity.
  - destruct (m_pass (i_mem s)) as [[[|] [|]]|] eqn:Em; try discriminate E. injection E as <-. rewrite Oc. destruct Co as [K C]. destruct (drop_all (m_stale (i_mem s)) _ K) as [K1 D].
    split; [exact K1|]. cbn [i_mem m_cache m_stale m_pass i_range i_lv]. intros t l G. destruct (D t l G) as [G1 N]. destruct (C t l G1) as [[X _]|X]; [contradiction|right; exact X].
  - injection E as <-. apply (cache_frame s); auto. destruct Ca; auto.
  - injection E as <-. split; [constructor|]. intros t l G. discriminate G.
  - assert (X : i_lv s' = i_lv s /\ i_range s' = i_range s /\ m_pass (i_mem s') = m_pass (i_mem s) /\ m_stale (i_mem s') = m_stale (i_mem s) /\ m_cache (i_mem s') = m_cache (i_mem s)).
    { destruct (kget t (m_cache (i_mem s))); [injection E as <-; auto|]. destruct (kget t (lv3 (i_lv s))); [|injection E as <-; auto]. destruct (over_cache c && (cached_length c <=? length l)); injection E as <-; auto. }
    destruct X as (X1&X2&X3&X4&X5). apply (cache_frame s); auto; [|rewrite X1; reflexivity]. rewrite X3, X4. destruct (m_pass (i_mem s)); [right; left; split; [reflexivity|discriminate]|left; reflexivity].
  - destruct (existsb _ _); [|discriminate E]. injection E as <-. destruct Co as [K C]. split; [apply kput_sorted; exact K|]. cbn [set_cache i_mem m_cache m_stale m_pass i_range i_lv].
    intros u q G. rewrite kget_put in G by exact K. destruct (beqb u t) eqn:B; [|apply C; exact G]. apply beqb_eq in B. subst u. injection G as <-. right.
    assert (Lt : list_at t (lv3 (i_lv s)) = l) by (unfold list_at; rewrite Ca; reflexivity). rewrite <- Lt. auto.
  - injection E as <-. destruct Co as [K C]. split; [apply kfilter_sorted; exact K|]. cbn [set_cache i_mem m_cache m_stale m_pass i_range i_lv].
    intros u q G. unfold kdel in G. rewrite kget_filter in G by exact K. destruct (negb (beqb u t)); [apply C; exact G|discriminate G].
Qed.

Lemma cache_run c es : over_cache c = true -> forall h low s s', inv h low s -> history c s es = Some s' -> orderly (all h) (i_range s) es -> calm c s es -> cache_ok s -> cache_ok s'.
Proof.
  intros Oc. induction es as [|e es IH]; intros h low s s' Iv E O Ca Co; [injection E as <-; exact Co|]. cbn [history] in E. destruct (next c s e) as [s1|] eqn:E1; [|discriminate E].
  pose proof (cache_step c h low s e s1 es Oc Iv E1 O Ca Co) as Co1. destruct (inv_step c h low s e s1 es Iv E1 O) as (Iv1&O1&_). destruct Ca as [_ Ca]. eapply IH; eauto.
Qed.
Lemma cache_start rg : cache_ok (empty_index rg).
Proof. split; [constructor|]. intros t l G. discriminate G. Qed.

(* what a reader gets as level 3 agrees with the disk, in the region's range *)
Lemma merged_ok c h low s t : inv h low s -> over_cache c = false \/ (cache_ok s /\ m_pass (i_mem s) = None) ->
  ascending (merged c s t) /\ forall k, within_range (i_range s) k -> entry (merged c s t) k = entry (list_at t (lv3 (i_lv s))) k.
Proof.
  intros Iv X. unfold merged. assert (D : ascending (list_at t (lv3 (i_lv s))) /\ forall k, within_range (i_range s) k -> entry (list_at t (lv3 (i_lv s))) k = entry (list_at t (lv3 (i_lv s))) k)
    by (split; [apply (v_asc3 _ _ _ Iv)|reflexivity]).
  destruct (over_cache c); [|exact D]. destruct (kget t (m_cache (i_mem s))) as [l|] eqn:G; [|exact D]. destruct X as [X|[[_ C] Np]]; [discriminate X|].
  destruct (C t l G) as [[_ Y]|Y]; [contradiction|exact Y].
Qed.

Lemma doc_old new old old' k : entry old k = entry old' k -> doc new old k = doc new old' k.
Proof. intros E. unfold doc. rewrite E. reflexivity. Qed.

(* whole queries *)
Lemma reader_answers s h low c new yes f : inv h low s -> over_cache c = false \/ (cache_ok s /\ m_pass (i_mem s) = None) ->
  (forall t, ascending (new t)) ->
  (forall t k, within_range (i_range s) k -> doc (new t) (list_at t (lv3 (i_lv s))) k = yes t k) ->
  let rg := m_range (i_mem s) in let q := query_of new (merged c s) f in
  fst rg <> [] \/ starts_inside (snd rg) q ->
  exists e L, build (fst rg) (snd rg) q = Some e /\ StronglySorted below L /\
    (forall rounds, length L < rounds -> read_all rounds e = Some L) /\
    forall k, within_range (i_range s) k -> (In k L <-> satisfies (fun t => yes t k) f).
Proof.
  intros Iv Cm An D rg q Si. assert (Ao : forall t, ascending (merged c s t)) by (intros t; apply (merged_ok c h low s t Iv Cm)).
  destruct (search_answers (fst rg) (snd rg) q (query_stored _ _ An Ao f) Si) as (e&L&E&Sl&M&_&Re). exists e, L. do 3 (split; [assumption|]). intros k R. rewrite M.
  apply (answers_same rg new (merged c s) (fun t => yes t k) k An Ao).
  - apply (v_range _ _ _ Iv). exact R.
  - intros t. rewrite <- (D t k R). apply doc_old. apply (merged_ok c h low s t Iv Cm). exact R.
Qed.

(* ---- the story and the writes ---- *)
Lemma told_snoc es e : told (es ++ [e]) = tell (told es) e.
Proof. unfold told. rewrite fold_left_app. reflexivity. Qed.
Lemma told_app a b : told (a ++ b) = fold_left tell b (told a).
Proof. unfold told. apply fold_left_app. Qed.
Lemma written_snoc es e : written (es ++ [e]) = written es ++ match e with Write ws => ws | _ => [] end.
Proof. unfold written. rewrite map_app, concat_app. cbn [map concat]. rewrite app_nil_r. reflexivity. Qed.
Lemma told_all es : all (told es) = written es.
Proof.
  induction es as [|e es IH] using rev_ind; [reflexivity|]. rewrite told_snoc, written_snoc, <- IH. destruct e; cbn [tell all]; rewrite ?app_nil_r; reflexivity.
Qed.
Lemma written_app a b : written (a ++ b) = written a ++ written b.
Proof. unfold written. rewrite map_app, concat_app. reflexivity. Qed.
Lemma began_stays es : ~ In Begin es -> forall h, began (fold_left tell es h) = began h.
Proof.
  induction es as [|e es IH]; intros N h; [reflexivity|]. cbn [fold_left]. rewrite IH by (intros X; apply N; right; exact X). destruct e; try reflexivity. exfalso. apply N. left. reflexivity.
Qed.
Lemma pass_shows a b t : ~ In Begin b -> visible (told (a ++ Begin :: b ++ [End])) t = written a.
Proof.
  intros N. replace (a ++ Begin :: b ++ [End]) with ((a ++ [Begin] ++ b) ++ [End]) by (rewrite <- !app_assoc; reflexivity). rewrite told_snoc. unfold visible. cbn [tell shown all].
  rewrite told_all, !written_app, told_app. cbn [app fold_left]. rewrite began_stays by exact N. cbn [tell began]. rewrite told_all.
  rewrite firstn_more by lia. apply firstn_all.
Qed.
Lemma history_app c a : forall b s, history c s (a ++ b) = match history c s a with Some s' => history c s' b | None => None end.
Proof. induction a as [|e a IH]; intros b s; [reflexivity|]. cbn [app history]. destruct (next c s e); [apply IH|reflexivity]. Qed.

Lemma ask_of rg new old f e L : build (fst rg) (snd rg) (query_of new old f) = Some e -> (forall rounds, length L < rounds -> read_all rounds e = Some L) ->
  forall rounds, length L < rounds -> ask rg new old f rounds = Some L.
Proof. intros E R rounds X. unfold ask. rewrite E. apply R. exact X. Qed.
Lemma search_reads c rg0 es s f : history c (empty_index rg0) es = Some s -> orderly [] rg0 es ->
  over_cache c = false \/ (calm c (empty_index rg0) es /\ m_pass (i_mem s) = None) ->
  fst (m_range (i_mem s)) <> [] \/ starts_inside (snd (m_range (i_mem s))) (query_of (recent_fast s) (merged c s) f) ->
  exists L, (forall rounds, length L < rounds -> search c s f rounds = Some L) /\ StronglySorted below L /\
    forall k, within_range (i_range s) k -> (In k L <-> satisfies (fun t => holds (visible (told es) t) t k) f).
Proof.
  intros E O Cm Si. pose proof (inv_history c rg0 es s E O) as Iv.
  assert (Cm' : over_cache c = false \/ (cache_ok s /\ m_pass (i_mem s) = None)).
  { destruct (over_cache c) eqn:Oc; [|left; reflexivity]. destruct Cm as [Cm|[Ca Np]]; [discriminate Cm|]. right. split; [|exact Np].
    apply (cache_run c es Oc story0 (fun _ => 0) (empty_index rg0) s (inv_start rg0) E O Ca (cache_start rg0)). }
  destruct (reader_answers s (told es) _ c (recent_fast s) (fun t k => holds (visible (told es) t) t k) f Iv Cm') as (e&L&B&Sl&Re&M).
  - intros t. apply (v_asc2 _ _ _ Iv).
  - intros t k R. eapply fast_doc; eauto.
  - exact Si.
  - exists L. split; [|split; assumption]. intros rounds Lr. unfold search. eapply ask_of; eauto.
Qed.

Lemma two_moments_sum c rg es a b d s1 s2 s t k : history c (empty_index rg) es = Some s -> orderly [] rg es -> es = a ++ b ++ d ->
  history c (empty_index rg) a = Some s1 -> history c (empty_index rg) (a ++ b) = Some s2 -> within_range (i_range s) k ->
  ascending (recent_fast s1 t) /\ ascending (list_at t (lv3 (i_lv s2))) /\
  exists n, shown (told a) t <= n <= shown (told (a ++ b)) t /\ (n = shown (told a) t \/ n = sinks (told a) (sinks story0 (fun _ => 0) a) b t) /\
    doc (recent_fast s1 t) (list_at t (lv3 (i_lv s2))) k = holds (firstn n (written es)) t k.
Proof.
  intros E O -> Ea Eab R.
  destruct (orderly_run c a (b ++ d) story0 (fun _ => 0) (empty_index rg) s1 (inv_start rg) Ea O) as [Oa Obd]. fold (told a) in Obd.
  pose proof (inv_history c rg a s1 Ea Oa) as I1. rewrite history_app, Ea in Eab. rewrite history_app, Ea, history_app, Eab in E.
  destruct (orderly_run c b d (told a) _ s1 s2 I1 Eab Obd) as [Ob Od]. destruct (inv_run c b (told a) _ s1 s2 I1 Eab Ob) as [I2 _].
  destruct (inv_run c d _ _ s2 s I2 E Od) as [I3 Sub]. split; [apply (v_asc2 _ _ _ I1)|]. split; [apply (v_asc3 _ _ _ I2)|].
  rewrite told_app. 
  assert (X : exists n, shown (told a) t <= n <= shown (fold_left tell b (told a)) t /\ (n = shown (told a) t \/ n = sinks (told a) (sinks story0 (fun _ => 0) a) b t) /\
    doc (recent_fast s1 t) (list_at t (lv3 (i_lv s2))) k = holds (firstn n (all (fold_left tell b (told a)))) t k).
  { destruct (shown_run c b (told a) _ s1 s2 t I1 Eab Ob) as (A&B&more&C). specialize (Sub k R). destruct (inv_run c b (told a) _ s1 s2 I1 Eab Ob) as [_ Sub1].
    destruct (v_lists _ _ _ I1 t k (Sub1 k Sub)) as [P Q]. destruct (v_lists _ _ _ I2 t k Sub) as [P' _]. unfold doc, recent_fast.
    pose proof (v_shown _ _ _ I1 t) as L1. pose proof (v_began _ _ _ I1) as L2. pose proof (v_low _ _ _ I1 t) as L3. pose proof (v_low _ _ _ I2 t) as L4.
    destruct (entry (list_at t (lv2 (i_lv s1))) k) as [e|].
    - exists (shown (told a) t). split; [lia|]. split; [left; reflexivity|]. rewrite C, firstn_more by lia. symmetry. exact Q.
    - destruct B as [B|B].
      + exists (shown (told a) t). split; [lia|]. split; [left; reflexivity|]. rewrite <- P', B, C, !firstn_more by lia. symmetry. exact Q.
      + eexists. split; [|split; [right; reflexivity|symmetry; exact P']]. lia. }
  destruct X as (n&Hn&Hd&Hx). exists n. split; [exact Hn|]. split; [exact Hd|]. rewrite Hx. rewrite <- told_app, told_all, app_assoc, (written_app (a ++ b) d).
  rewrite firstn_more; [reflexivity|]. rewrite <- told_all, told_app. pose proof (v_shown _ _ _ I2 t). pose proof (v_began _ _ _ I2). lia.
Qed.

(* reads of the terms of a query, each over a stretch of the history *)
Lemma spread_reads c rg es s f (a b d : term -> list event) (s1 s2 : term -> index) srg :
  history c (empty_index rg) es = Some s -> orderly [] rg es ->
  (forall t, es = a t ++ b t ++ d t /\ history c (empty_index rg) (a t) = Some (s1 t) /\ history c (empty_index rg) (a t ++ b t) = Some (s2 t)) ->
  (forall k, within_range (i_range s) k -> within_range srg k) ->
  let new := fun t => recent_fast (s1 t) t in let old := fun t => list_at t (lv3 (i_lv (s2 t))) in
  fst srg <> [] \/ starts_inside (snd srg) (query_of new old f) ->
  exists L, (forall rounds, length L < rounds -> ask srg new old f rounds = Some L) /\ StronglySorted below L /\
    forall k, within_range (i_range s) k -> exists n, (forall t, shown (told (a t)) t <= n t <= shown (told (a t ++ b t)) t) /\
      (In k L <-> satisfies (fun t => holds (firstn (n t) (written es)) t k) f).
Proof.
  intros E O Re Sub new old Si.
  assert (T : forall t k, within_range (i_range s) k -> _) by (intros t k R; destruct (Re t) as (X1&X2&X3); exact (two_moments_sum c rg es (a t) (b t) (d t) (s1 t) (s2 t) s t k E O X1 X2 X3 R)).
  assert (An : (forall t, ascending (new t)) /\ forall t, ascending (old t)).
  { split; intros t; destruct (Re t) as (X1&X2&X3).
    - assert (Oa : orderly [] rg (a t)) by (rewrite X1 in O; exact (proj1 (orderly_run c (a t) _ story0 (fun _ => 0) (empty_index rg) _ (inv_start rg) X2 O))). apply (v_asc2 _ _ _ (inv_history c rg _ _ X2 Oa)).
    - assert (Oa : orderly [] rg (a t ++ b t)) by (rewrite X1, app_assoc in O; exact (proj1 (orderly_run c (a t ++ b t) _ story0 (fun _ => 0) (empty_index rg) _ (inv_start rg) X3 O))). apply (v_asc3 _ _ _ (inv_history c rg _ _ X3 Oa)). }
  destruct An as [An Ao]. destruct (search_answers (fst srg) (snd srg) (query_of new old f) (query_stored new old An Ao f) Si) as (e&L&B&Sl&M&_&Rd).
  exists L. split; [apply (ask_of srg new old f e L B Rd)|]. split; [exact Sl|]. intros k R.
  set (m := fun t => sinks (told (a t)) (sinks story0 (fun _ => 0) (a t)) (b t) t).
  exists (fun t => if eqb (doc (new t) (old t) k) (holds (firstn (shown (told (a t)) t) (written es)) t k) then shown (told (a t)) t else m t). split.
  - intros t. destruct (T t k R) as (_&_&n&Hn&Hd&Hx). destruct (eqb _ _) eqn:Q; [lia|]. destruct Hd as [->| ->]; [|exact Hn]. exfalso. fold (new t) (old t) in Hx. rewrite Hx, eqb_reflx in Q. discriminate Q.
  - rewrite M. apply (answers_same srg new old _ k An Ao (Sub k R)). intros t. destruct (eqb _ _) eqn:Q; [apply eqb_prop in Q; exact Q|].
    destruct (T t k R) as (_&_&n&Hn&Hd&Hx). fold (new t) (old t) in Hx. destruct Hd as [->| ->]; [rewrite Hx, eqb_reflx in Q; discriminate Q|exact Hx].
Qed.
