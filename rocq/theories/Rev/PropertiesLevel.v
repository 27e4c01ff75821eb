(** * C50, C51: the levels of a full-text index

    [history] runs writes, background merging, splits, restarts and cache traffic in any
    order the code allows; [search] is a query on the state reached.  LevelSpec.v says what
    should be seen without levels: [holds ws t k] is whether the last of the writes [ws]
    to document k under term t put it there; [visible] is how many of the writes a reader
    sees. *)
From Coq Require Import ZArith List Bool Sorted Lia.
From Verif Require Import Common.Bytes Common.KV Rev.Model Rev.Spec Rev.Order Rev.LevelModel Rev.LevelSpec Rev.LevelOrder Rev.LevelMerge Rev.LevelProofs Rev.LevelRead Rev.LevelCheck.
Import ListNotations.
Local Open Scope nat_scope.

(** ** C50 *)

(** In every state, any query returns, inside the region's range, exactly the documents
    that satisfy it in the writes made visible so far: no document is lost or comes back
    through merging, range removal, restarts or failed passes.  The cache must be off, or
    no pass running and the cache filled as [calm] says. *)
Theorem C50_search_follows_the_writes_partial :
  forall c rg es s f,
    history c (empty_index rg) es = Some s -> orderly [] rg es ->
    over_cache c = false \/ (calm c (empty_index rg) es /\ m_pass (i_mem s) = None) ->
    fst (m_range (i_mem s)) <> [] \/ starts_inside (snd (m_range (i_mem s))) (query_of (recent_fast s) (merged c s) f) ->
    exists L,
      (forall rounds, length L < rounds -> search c s f rounds = Some L) /\
      StronglySorted below L /\
      forall k, in_range (fst (i_range s)) (snd (i_range s)) k ->
        (In k L <-> satisfies (fun t => holds (visible (told es) t) t k) f).
Proof. exact search_reads. Qed.
Print Assumptions C50_search_follows_the_writes_partial.

(** After a complete pass every write committed before it began is seen, and only those:
    the answers are those of an index without levels. *)
Theorem C50_complete_pass_shows_every_write_partial :
  forall c rg before during s f,
    let es := before ++ Begin :: during ++ [End] in
    history c (empty_index rg) es = Some s -> orderly [] rg es -> ~ In Begin during ->
    over_cache c = false \/ (calm c (empty_index rg) es /\ m_pass (i_mem s) = None) ->
    fst (m_range (i_mem s)) <> [] \/ starts_inside (snd (m_range (i_mem s))) (query_of (recent_fast s) (merged c s) f) ->
    exists L,
      (forall rounds, length L < rounds -> search c s f rounds = Some L) /\
      StronglySorted below L /\
      forall k, in_range (fst (i_range s)) (snd (i_range s)) k ->
        (In k L <-> satisfies (fun t => holds (written before) t k) f).
Proof.
  intros c rg before during s f es E O N Cm Si. destruct (search_reads c rg es s f E O Cm Si) as (L&A&B&M). exists L. do 2 (split; [assumption|]).
  intros k R. rewrite (M k R). unfold es.
  assert (X : forall yes yes', (forall t, yes t = yes' t) -> forall g, satisfies yes g <-> satisfies yes' g).
  { intros yes yes' Eq. fix IH 1. intros [t|fs|fs]; cbn [satisfies]; [rewrite Eq; reflexivity| |].
    - apply ZifyClasses.and_morph; [reflexivity|]. induction fs as [|g fs IHl]; [reflexivity|]. apply ZifyClasses.and_morph; [apply IH|exact IHl].
    - induction fs as [|g fs IHl]; [reflexivity|]. apply ZifyClasses.or_morph; [apply IH|exact IHl]. }
  apply X. intros t. rewrite pass_shows by exact N. reflexivity.
Qed.
Print Assumptions C50_complete_pass_shows_every_write_partial.

(** Moving a list to level 3, removing what lies outside the range, taking over the range,
    starting or giving up a pass, and a restart change no document's membership in any
    term, inside the range. *)
Definition background (e : event) : Prop :=
  match e with Start | Remove2 _ | Remove3 _ | Begin | To3 _ | Fail | Stop => True | _ => False end.
Theorem C50_background_work_is_invisible :
  forall c rg es e s s' t k,
    history c (empty_index rg) es = Some s -> next c s e = Some s' -> orderly [] rg (es ++ [e]) -> background e ->
    in_range (fst (i_range s')) (snd (i_range s')) k ->
    (matches (fst (m_range (i_mem s'))) (snd (m_range (i_mem s'))) (QTerm (recent_fast s' t) (list_at t (lv3 (i_lv s')))) k <->
     matches (fst (m_range (i_mem s))) (snd (m_range (i_mem s))) (QTerm (recent_fast s t) (list_at t (lv3 (i_lv s)))) k).
Proof.
  intros c rg es e s s' t k E En O Bg R.
  destruct (orderly_run c es [e] story0 (fun _ => 0) (empty_index rg) s (inv_start rg) E O) as [Oa Oe].
  pose proof (inv_history c rg es s E Oa) as I1. destruct (inv_step c _ _ s e s' [] I1 En Oe) as (I2&_&Sub).
  rewrite (term_doc (m_range (i_mem s'))), (term_doc (m_range (i_mem s))); try apply (v_asc2 _ _ _ I1); try apply (v_asc3 _ _ _ I1); try apply (v_asc2 _ _ _ I2); try apply (v_asc3 _ _ _ I2); try apply (v_range _ _ _ I1); try apply (v_range _ _ _ I2); auto; try (apply Sub; exact R).
  rewrite (fast_doc _ _ _ t k I1 (Sub k R)), (fast_doc _ _ _ t k I2 R). destruct e; try contradiction Bg; reflexivity.
Qed.
Print Assumptions C50_background_work_is_invisible.

(** Reading level 1 as well sees every committed write at once, if its iterator is given
    the store.  The code does not give it (see the refutation below). *)
Theorem C50_full_read_with_store_partial :
  forall c rg es s t,
    history c (empty_index rg) es = Some s -> orderly [] rg es -> plain t ->
    exists l, recent_full true s t = Some l /\
      forall k, in_range (fst (i_range s)) (snd (i_range s)) k ->
        (matches (fst (m_range (i_mem s))) (snd (m_range (i_mem s))) (QTerm l (list_at t (lv3 (i_lv s)))) k <->
         holds (written es) t k = true).
Proof.
  intros c rg es s t E O P. pose proof (inv_history c rg es s E O) as Iv. destruct (full_doc _ _ s t Iv (plain_nz t P)) as (l&E1&A&D). exists l. split; [exact E1|].
  intros k R. rewrite (term_doc (m_range (i_mem s))); [|exact A|apply (v_asc3 _ _ _ Iv)|apply (v_range _ _ _ Iv); exact R]. rewrite (D k R), told_all. reflexivity.
Qed.
Print Assumptions C50_full_read_with_store_partial.

(* examples: two documents, moved to level 3, one deleted, a split at 5, range removal *)
Definition ex_c := Config 1 1 true.
Definition ex_es : list event :=
  [Write [Wr [97%Z] [1%Z] false 10%Z; Wr [97%Z] [7%Z] false 10%Z; Wr [98%Z] [1%Z] false 11%Z]; Start; Begin; To2 [97%Z]; To3 [97%Z]; To2 [98%Z]; To3 [98%Z]; End;
   Fetch [97%Z]; Keep [97%Z] [Node [1%Z] false; Node [7%Z] false];
   Write [Wr [97%Z] [2%Z] false 20%Z; Wr [98%Z] [1%Z] true 20%Z]; Range ([], [5%Z]); Stop; Start; Remove3 [97%Z];
   Write [Wr [97%Z] [3%Z] false 30%Z]; Begin; Write [Wr [97%Z] [2%Z] true 40%Z]; To2 [97%Z]; To3 [97%Z]; To2 [98%Z]; To3 [98%Z]; End].
Example ex_orderly : orderly [] ([], []) ex_es.
Proof. apply orderlyb_ok. vm_compute. reflexivity. Qed.
Example ex_search : exists s, history ex_c (empty_index ([], [])) ex_es = Some s /\ m_pass (i_mem s) = None /\
  starts_inside (snd (m_range (i_mem s))) (query_of (recent_fast s) (merged ex_c s) (AnyOf [Has [97%Z]; AllOf [Has [97%Z]; Has [98%Z]]])) /\
  search ex_c s (AnyOf [Has [97%Z]; AllOf [Has [97%Z]; Has [98%Z]]]) 9 = Some [[1%Z]; [2%Z]; [3%Z]].
Proof.
  eexists. split; [vm_compute; reflexivity|]. split; [reflexivity|]. split; [|vm_compute; reflexivity].
  split; [right; intros n [X|X]; cbn in X; destruct X as [<-|[]] || destruct X; reflexivity|].
  split; [|exact Logic.I]. split; [right; intros n [X|X]; cbn in X; destruct X as [<-|[]] || destruct X; reflexivity|].
  split; [right; intros n [X|X]; cbn in X; destruct X as [<-|[]] || destruct X; reflexivity|exact Logic.I].
Qed.
Fixpoint calmb (c : config) (s : index) (es : list event) : bool :=
  match es with
  | [] => true
  | e :: r =>
      match e with
      | Keep t l => match kget t (lv3 (i_lv s)) with Some l' => if list_eq_dec node_dec l' l then true else false | None => false end
      | Fail => match m_pass (i_mem s), m_stale (i_mem s) with None, _ => true | _, [] => true | _, _ => false end
      | _ => true
      end && match next c s e with Some s' => calmb c s' r | None => true end
  end.
Lemma calmb_ok c es : forall s, calmb c s es = true -> calm c s es.
Proof.
  induction es as [|e es IH]; intros s E; [exact Logic.I|]. cbn [calmb calm] in *. apply andb_true_iff in E. destruct E as [A B]. split.
  - destruct e; try exact Logic.I; [destruct (m_pass (i_mem s)); [|left; reflexivity]; destruct (m_stale (i_mem s)); [right; reflexivity|discriminate A]|].
    destruct (kget t (lv3 (i_lv s))) as [l'|]; [|discriminate A]. destruct (list_eq_dec node_dec l' l) as [->|]; [reflexivity|discriminate A].
  - intros s' E'. rewrite E' in B. apply IH. exact B.
Qed.
Example ex_calm : calm ex_c (empty_index ([], [])) ex_es.
Proof. apply calmb_ok. vm_compute. reflexivity. Qed.

(** *** Where it fails *)

(** With the flag that makes readers read level 1, any term that has an entry there makes
    the reader use a store pointer that was never set. *)
Theorem C50_full_read_refuted :
  exists c es s t, history c (empty_index ([], [])) es = Some s /\ orderly [] ([], []) es /\ recent_full false s t = None.
Proof.
  exists ex_c, [Write [Wr [97%Z] [1%Z] false 10%Z]]. eexists. exists [97%Z]. split; [vm_compute; reflexivity|]. split; [apply orderlyb_ok; reflexivity|vm_compute; reflexivity].
Qed.
Print Assumptions C50_full_read_refuted.

(** The clock goes back (another leader, or an adjustment): a document inserted and then
    deleted stays for ever. *)
Theorem C50_clock_back_refuted :
  exists c es s t k, history c (empty_index ([], [])) es = Some s /\
    es = [Write [Wr t k false 10%Z]; Write [Wr t k true 5%Z]; Begin; To2 t; End] /\
    holds (written es) t k = false /\ search c s (Has t) 9 = Some [k].
Proof.
  exists (Config 9 9 true), [Write [Wr [97%Z] [1%Z] false 10%Z]; Write [Wr [97%Z] [1%Z] true 5%Z]; Begin; To2 [97%Z]; End]. eexists. exists [97%Z], [1%Z].
  split; [vm_compute; reflexivity|]. split; [reflexivity|]. split; vm_compute; reflexivity.
Qed.
Print Assumptions C50_clock_back_refuted.

(** A term with a NUL byte: its document is found under the part before the NUL, and not
    under the term. *)
Theorem C50_nul_in_term_refuted :
  exists c s, history c (empty_index ([], [])) [Write [Wr [97%Z; 0%Z; 98%Z] [1%Z] false 10%Z]; Begin; To2 [97%Z]; End] = Some s /\
    search c s (Has [97%Z]) 9 = Some [[1%Z]] /\ search c s (Has [97%Z; 0%Z; 98%Z]) 9 = Some [].
Proof. exists (Config 9 9 true). eexists. split; [vm_compute; reflexivity|]. split; vm_compute; reflexivity. Qed.
Print Assumptions C50_nul_in_term_refuted.

(** A term that starts with eight bytes 0xFF is above the bound of the pass: a complete
    pass leaves it unmerged. *)
Theorem C50_high_term_refuted :
  exists c s, history c (empty_index ([], [])) [Write [Wr (bound ++ [97%Z]) [1%Z] false 10%Z]; Begin; End] = Some s /\
    search c s (Has (bound ++ [97%Z])) 9 = Some [].
Proof. exists (Config 9 9 true). eexists. split; [vm_compute; reflexivity|]. vm_compute; reflexivity. Qed.
Print Assumptions C50_high_term_refuted.

(** After a split, until the next round of the background thread, and after a restart,
    until its first round, documents that belong to the other region are returned. *)
Theorem C50_outside_the_range_refuted :
  exists c es s k, history c (empty_index ([], [])) es = Some s /\ orderly [] ([], []) es /\
    search c s (Has [97%Z]) 9 = Some [[1%Z]; k] /\ ~ in_range (fst (i_range s)) (snd (i_range s)) k.
Proof.
  exists (Config 9 9 true), [Write [Wr [97%Z] [1%Z] false 10%Z; Wr [97%Z] [7%Z] false 10%Z]; Start; Begin; To2 [97%Z]; End; Range ([], [5%Z]); Start; Stop]. eexists. exists [7%Z].
  split; [vm_compute; reflexivity|]. split; [apply orderlyb_ok; reflexivity|]. split; [vm_compute; reflexivity|]. intros [_ [X|X]]; discriminate X.
Qed.
Print Assumptions C50_outside_the_range_refuted.

(** The request to remove what lies outside the range is kept in memory only.  If a restart
    loses it and the region's range grows again, documents deleted meanwhile in the other
    region come back: here document 7 was left behind by a split at 5, and the range is
    whole again. *)
Theorem C50_range_grows_refuted :
  exists c s, history c (empty_index ([], []))
      [Write [Wr [97%Z] [7%Z] false 10%Z]; Start; Begin; To2 [97%Z]; End; Range ([], [5%Z]); Stop; Start; Begin; End; Range ([], []); Start; Begin; End] = Some s /\
    search c s (Has [97%Z]) 9 = Some [[7%Z]].
Proof. exists (Config 9 9 true). eexists. split; [vm_compute; reflexivity|]. vm_compute; reflexivity. Qed.
Print Assumptions C50_range_grows_refuted.

(** Two transactions write the entry in the same microsecond, the second after the pass
    has taken its snapshot: it overwrites the first and is deleted with it. *)
Theorem C50_same_microsecond_refuted :
  exists c s t k, let es := [Write [Wr t k false 10%Z]; Begin; Write [Wr t k true 10%Z]; To2 t; End; Begin; End] in
    history c (empty_index ([], [])) es = Some s /\ holds (written es) t k = false /\ search c s (Has t) 9 = Some [k].
Proof. exists (Config 9 9 true). eexists. exists [97%Z], [1%Z]. split; [vm_compute; reflexivity|]. split; vm_compute; reflexivity. Qed.
Print Assumptions C50_same_microsecond_refuted.

(** ** C51 *)

(** A query reads level 2 and then level 3 of each term while writes and merging go on.
    For every document inside the range there is, per term, one moment between the two
    reads of that term such that the query answers as of those moments.  [a t] is the
    history up to the read of level 2 of t, [b t] what happens before the read of level 3.
    Lists come from disk, not from the cache. *)
Theorem C51_read_during_merging_partial :
  forall c rg es s f (a b d : term -> list event) (s1 s2 : term -> index) srg,
    history c (empty_index rg) es = Some s -> orderly [] rg es ->
    (forall t, es = a t ++ b t ++ d t /\
       history c (empty_index rg) (a t) = Some (s1 t) /\ history c (empty_index rg) (a t ++ b t) = Some (s2 t)) ->
    (forall k, in_range (fst (i_range s)) (snd (i_range s)) k -> in_range (fst srg) (snd srg) k) ->
    let new := fun t => recent_fast (s1 t) t in
    let old := fun t => list_at t (lv3 (i_lv (s2 t))) in
    fst srg <> [] \/ starts_inside (snd srg) (query_of new old f) ->
    exists L,
      (forall rounds, length L < rounds -> ask srg new old f rounds = Some L) /\ StronglySorted below L /\
      forall k, in_range (fst (i_range s)) (snd (i_range s)) k ->
        exists n, (forall t, shown (told (a t)) t <= n t <= shown (told (a t ++ b t)) t) /\
          (In k L <-> satisfies (fun t => holds (firstn (n t) (written es)) t k) f).
Proof. exact spread_reads. Qed.
Print Assumptions C51_read_during_merging_partial.

(* level 2 is read before the move to level 3, level 3 after it and one more pass *)
Definition ex_a : list event := [Write [Wr [97%Z] [1%Z] false 10%Z]; Start; Begin; To2 [97%Z]; End].
Definition ex_b : list event := [Write [Wr [97%Z] [2%Z] false 20%Z; Wr [97%Z] [1%Z] true 20%Z]; Begin; To2 [97%Z]; To3 [97%Z]; End].
Example ex_two_moments : exists s1 s2, let c := Config 2 9 false in
  history c (empty_index ([], [])) ex_a = Some s1 /\ history c (empty_index ([], [])) (ex_a ++ ex_b) = Some s2 /\ orderly [] ([], []) (ex_a ++ ex_b) /\
  shown (told ex_a) [97%Z] = 1 /\ shown (told (ex_a ++ ex_b)) [97%Z] = 3 /\
  ask ([], []) (recent_fast s1) (fun t => list_at t (lv3 (i_lv s2))) (Has [97%Z]) 9 = Some [[1%Z]; [2%Z]].
Proof.
  eexists _, _. split; [vm_compute; reflexivity|]. split; [vm_compute; reflexivity|]. split; [apply orderlyb_ok; reflexivity|]. do 2 (split; [reflexivity|]). vm_compute. reflexivity.
Qed.

(** With the cache: a pass moves a list to level 3 and cleans the cache only at its end.
    In between, a reader combines the emptied level 2 with the old list, and a document
    that was visible before the move is gone. *)
Theorem C51_cached_list_loses_documents_refuted :
  exists c a b s1 s2, orderly [] ([], []) (a ++ b) /\ calm c (empty_index ([], [])) (a ++ b) /\
    history c (empty_index ([], [])) a = Some s1 /\ search c s1 (Has [97%Z]) 9 = Some [[1%Z]; [2%Z]] /\
    b = [To3 [97%Z]] /\ history c (empty_index ([], [])) (a ++ b) = Some s2 /\ search c s2 (Has [97%Z]) 9 = Some [[1%Z]].
Proof.
  exists (Config 1 1 true), [Write [Wr [97%Z] [1%Z] false 10%Z]; Start; Begin; To2 [97%Z]; To3 [97%Z]; End; Fetch [97%Z]; Keep [97%Z] [Node [1%Z] false];
    Write [Wr [97%Z] [2%Z] false 20%Z]; Begin; To2 [97%Z]], [To3 [97%Z]].
  eexists _, _. split; [apply orderlyb_ok; reflexivity|]. split; [apply calmb_ok; vm_compute; reflexivity|]. split; [vm_compute; reflexivity|]. split; [vm_compute; reflexivity|]. split; [reflexivity|]. split; vm_compute; reflexivity.
Qed.
Print Assumptions C51_cached_list_loses_documents_refuted.

(** A reader reads a level-3 list before a pass moves new entries into it, and caches it
    after the pass has cleaned the cache: the old list stays in the cache, and the
    documents moved are not found, for as long as it stays. *)
Theorem C51_stale_cache_refuted :
  exists c es s, orderly [] ([], []) es /\ history c (empty_index ([], [])) es = Some s /\ m_pass (i_mem s) = None /\
    holds (visible (told es) [97%Z]) [97%Z] [2%Z] = true /\ search c s (Has [97%Z]) 9 = Some [[1%Z]].
Proof.
  exists (Config 1 1 true), [Write [Wr [97%Z] [1%Z] false 10%Z]; Start; Begin; To2 [97%Z]; To3 [97%Z]; End; Fetch [97%Z];
    Write [Wr [97%Z] [2%Z] false 20%Z]; Begin; To2 [97%Z]; To3 [97%Z]; End; Keep [97%Z] [Node [1%Z] false]; Begin; End].
  eexists. split; [apply orderlyb_ok; reflexivity|]. split; [vm_compute; reflexivity|]. split; [reflexivity|]. split; vm_compute; reflexivity.
Qed.
Print Assumptions C51_stale_cache_refuted.

(** A pass that gives up after moving a list does not clean the cache, and the next pass
    forgets which lists were moved. *)
Theorem C51_failed_pass_refuted :
  exists c es s, orderly [] ([], []) es /\ history c (empty_index ([], [])) es = Some s /\ m_pass (i_mem s) = None /\
    holds (visible (told es) [97%Z]) [97%Z] [2%Z] = true /\ search c s (Has [97%Z]) 9 = Some [[1%Z]].
Proof.
  exists (Config 1 1 true), [Write [Wr [97%Z] [1%Z] false 10%Z]; Start; Begin; To2 [97%Z]; To3 [97%Z]; End; Fetch [97%Z]; Keep [97%Z] [Node [1%Z] false];
    Write [Wr [97%Z] [2%Z] false 20%Z]; Begin; To2 [97%Z]; To3 [97%Z]; Fail; Begin; End].
  eexists. split; [apply orderlyb_ok; reflexivity|]. split; [vm_compute; reflexivity|]. split; [reflexivity|]. split; vm_compute; reflexivity.
Qed.
Print Assumptions C51_failed_pass_refuted.
