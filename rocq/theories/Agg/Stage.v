(* an aggregation node over rows that stand for parts of groups *)
From Coq Require Import List ZArith Bool Lia Sorting.Permutation Sorting.Sorted.
From Verif Require Import Common.Bytes Common.KV Key.Model Key.Spec Agg.Model Agg.Spec Agg.Bits Agg.Sets Agg.Lists Agg.Group Agg.Calls Agg.Steps Agg.Final.
Import ListNotations.
Local Open Scope Z_scope.

Definition part := (mrow * (call -> list row))%type.

Lemma beqb_refl k : beqb k k = true.
Proof. now apply beqb_eq. Qed.
Lemma hfind_in k h g : hfind k h = Some g -> In (k, g) h.
Proof.
  induction h as [|[k' g'] h IH]; cbn [hfind]; [discriminate|]. destruct (beqb k k') eqn:E.
  - intros E2. injection E2 as <-. apply beqb_eq in E. subst. left; reflexivity.
  - intros E2. right. auto.
Qed.
Lemma hfind_none k h : hfind k h = None -> ~ In k (map fst h).
Proof.
  induction h as [|[k' g'] h IH]; cbn [hfind map fst In]; [auto|]. destruct (beqb k k') eqn:E; [discriminate|].
  intros E2 [<-|Hi]; [rewrite beqb_refl in E; discriminate|]. now apply IH.
Qed.
Lemma hput_keys k g h : forall x, In x (map fst (hput k g h)) <-> x = k \/ In x (map fst h).
Proof.
  induction h as [|[k' g'] h IH]; intros x; cbn [hput map fst In]; [intuition|].
  destruct (beqb k k') eqn:E; cbn [map fst In].
  - apply beqb_eq in E. subst. intuition.
  - rewrite IH. intuition.
Qed.
Lemma hput_nodup k g h : NoDup (map fst h) -> NoDup (map fst (hput k g h)).
Proof.
  induction h as [|[k' g'] h IH]; cbn [hput map fst]; intros N; [repeat constructor; auto|].
  inversion N as [|? ? Hn N']; subst. destruct (beqb k k') eqn:E; cbn [map fst].
  - apply beqb_eq in E. subst. now constructor.
  - constructor; [|auto]. rewrite hput_keys. intros [->|Hi]; [rewrite beqb_refl in E; discriminate|contradiction].
Qed.
Lemma hput_in k g h : NoDup (map fst h) -> forall k1 g1, In (k1, g1) (hput k g h) ->
  (k1 = k /\ g1 = g) \/ (k1 <> k /\ In (k1, g1) h).
Proof.
  induction h as [|[k' g'] h IH]; cbn [hput map fst]; intros N k1 g1.
  - intros [E|[]]. injection E as <- <-. auto.
  - inversion N as [|? ? Hn N']; subst. destruct (beqb k k') eqn:E; cbn [In].
    + apply beqb_eq in E. subst k'. intros [E|Hi]; [injection E as <- <-; auto|]. right. split; [|auto].
      intros ->. apply Hn. change k with (fst (k, g1)). now apply in_map.
    + intros [E2|Hi]; [injection E2 as <- <-; right; split; [|auto]; intros ->; rewrite beqb_refl in E; discriminate|].
      destruct (IH N' k1 g1 Hi) as [?|[? ?]]; auto.
Qed.
Lemma hput_nonempty k g h : hput k g h <> [].
Proof. destruct h as [|[k' g'] h]; cbn [hput]; [discriminate|]. destruct (beqb k k'); discriminate. Qed.
Lemma in_nodup_fst {A B} (h : list (A * B)) k a b : NoDup (map fst h) -> In (k, a) h -> In (k, b) h -> a = b.
Proof.
  induction h as [|[k' x] h IH]; cbn [map fst In]; intros N; [tauto|]. inversion N as [|? ? Hn N']; subst.
  intros [E1|H1] [E2|H2].
  - congruence.
  - exfalso. injection E1 as -> ->. apply Hn. change k with (fst (k, b)). now apply in_map.
  - exfalso. injection E2 as -> ->. apply Hn. change k with (fst (k, a)). now apply in_map.
  - auto.
Qed.

Section Stage.
Variable merger : bool.
Variable gs : groups.
Variable cs : list call.
Hypothesis slots : NoDup (map c_slot cs).

Definition upd (c : call) : bool := negb merger || c_distinct c.
Definition inp (c : call) (m : mrow) (rs : list row) : Prop :=
  rs <> [] /\
  if upd c then m_int m (c_slot c) = None /\ rs = [m_src m] /\ (merger = true -> match c_fn c with FMulti _ _ _ => False | _ => True end)
  else acc (c_fn c) rs (m_int m (c_slot c)) /\ keyed (c_fn c) (m_src m) rs /\ part_ok (c_fn c) rs.
Definition good (p : part) : Prop := (exists k, group_key gs (m_src (fst p)) = Some k) /\ forall c, In c cs -> inp c (fst p) (snd p c).

Definition of_key (k : list Z) (p : part) : bool := match group_key gs (m_src (fst p)) with Some k' => beqb k k' | None => false end.
Definition rowsk (k : list Z) (c : call) (ps : list part) : list row := concat (map (fun p => snd p c) (filter (of_key k) ps)).
Lemma rowsk_app k c a b : rowsk k c (a ++ b) = rowsk k c a ++ rowsk k c b.
Proof. unfold rowsk. now rewrite filter_app, map_app, concat_app. Qed.
Lemma rowsk_one k c (p : part) : group_key gs (m_src (fst p)) = Some k -> rowsk k c [p] = snd p c.
Proof. intros E. unfold rowsk, of_key. cbn [filter]. rewrite E, beqb_refl. cbn. apply app_nil_r. Qed.
Lemma rowsk_other k k' c (p : part) : group_key gs (m_src (fst p)) = Some k' -> k <> k' -> rowsk k c [p] = [].
Proof.
  intros E Ne. unfold rowsk, of_key. cbn [filter]. rewrite E. destruct (beqb k k') eqn:B; [apply beqb_eq in B; contradiction|reflexivity].
Qed.

(* the row of a group keeps what it does not aggregate *)
Definition kept (m m0 : mrow) : Prop := m_src m = m_src m0 /\ forall s, ~ In s (map c_slot cs) -> m_int m s = m_int m0 s.
Lemma kept_look g g0 : m_src (g_row g) = m_src (g_row g0) -> (forall d, ~ In (c_slot d) (map c_slot cs) -> look d g = look d g0) -> kept (g_row g) (g_row g0).
Proof.
  intros E Hl. split; [exact E|]. intros s Hs. specialize (Hl (Call s FCountStar false) Hs). unfold look in Hl. cbn [c_slot] in Hl. congruence.
Qed.
Lemma kept_trans a b c : kept a b -> kept b c -> kept a c.
Proof. intros [A1 A2] [B1 B2]. split; [congruence|]. intros s Hs. rewrite A2, B2; auto. Qed.

Definition inv (ps : list part) (h : hmap) : Prop :=
  NoDup (map fst h) /\
  (forall k g, In (k, g) h -> group_key gs (m_src (g_row g)) = Some k /\ (exists p, In p ps /\ kept (g_row g) (fst p)) /\
     forall c, In c cs -> run (c_fn c) (rowsk k c ps) (look c g)) /\
  ((forall p, In p ps -> exists k, group_key gs (m_src (fst p)) = Some k /\ In k (map fst h)) \/
   (h = [] /\ gs = [] /\ merger = true /\ forall p c, In p ps -> In c cs -> nothing (c_fn c) (snd p c))).

(* a row added to a group *)
Lemma add_first (p : part) k : good p -> group_key gs (m_src (fst p)) = Some k ->
  (forall c, In c cs -> fits (c_fn c) (snd p c)) ->
  exists g, all_calls (fun c g => if merger then merge c true (fst p) g else update c (m_src (fst p)) g) cs
      (fold_left (fun g c => initialize false c g) cs (G (fst p) (fun _ => aux0))) = Some g /\
    kept (g_row g) (fst p) /\ forall c, In c cs -> run (c_fn c) (snd p c) (look c g).
Proof.
  intros [_ Hg] Ek Hf. destruct (init_all_ok false cs slots (G (fst p) (fun _ => aux0))) as (S1 & I1 & F1).
  set (g0 := fold_left _ cs _) in *.
  pose (P := fun c v => exists gi, look c gi = look c (G (fst p) (fun _ => aux0)) /\ v = look c (initialize false c gi)).
  pose (Q := fun c v => run (c_fn c) (snd p c) v).
  destruct (all_calls_ok (fun c g => if merger then merge c true (fst p) g else update c (m_src (fst p)) g) P Q cs) with (g := g0)
    as (g & E & Sg & Hq & Fg).
  - intros c g g'. destruct merger; [apply off_merge|apply off_update].
  - exact slots.
  - intros c g Hc (gi & Ei & Ev). destruct (Hg c Hc) as [Hne Hi]. unfold Q.
    assert (Es : slot c gi = m_int (fst p) (c_slot c)) by (rewrite look_slot, Ei; reflexivity).
    assert (Ea : g_aux gi (c_slot c) = aux0) by (change (g_aux gi (c_slot c)) with (v_aux (look c gi)); rewrite Ei; reflexivity).
    destruct (upd c) eqn:Eu.
    + destruct Hi as (En & Er & _). assert (Hu : exists g', update c (m_src (fst p)) g = Some g' /\ run (c_fn c) (snd p c) (look c g')).
      { rewrite Er. apply update_run; [|rewrite <- Er; apply Hf, Hc]. rewrite Ev. apply init_run; [congruence|exact Ea]. }
      unfold upd in Eu. destruct merger; [|exact Hu]. cbn [negb orb] in Eu. unfold merge. rewrite Eu. exact Hu.
    + destruct Hi as (A & K & Pp). unfold upd in Eu. destruct merger; [|discriminate]. cbn [negb orb] in Eu.
      eapply merge_first; eauto.
  - intros c Hc. exact (I1 c Hc).
  - exists g. split; [exact E|]. split; [|exact Hq]. apply (kept_look g (G (fst p) (fun _ => aux0))); [congruence|]. intros d Hd. rewrite (Fg d Hd). now apply F1.
Qed.
Lemma add_next (p : part) g0 (R : call -> list row) : good p -> (forall c, In c cs -> run (c_fn c) (R c) (look c g0)) ->
  (forall c, In c cs -> fits (c_fn c) (snd p c ++ R c)) ->
  exists g, all_calls (fun c g => if merger then merge c false (fst p) g else update c (m_src (fst p)) g) cs g0 = Some g /\
    kept (g_row g) (g_row g0) /\ forall c, In c cs -> run (c_fn c) (snd p c ++ R c) (look c g).
Proof.
  intros [_ Hg] Hr Hf.
  destruct (all_calls_ok (fun c g => if merger then merge c false (fst p) g else update c (m_src (fst p)) g)
     (fun c v => run (c_fn c) (R c) v) (fun c v => run (c_fn c) (snd p c ++ R c) v) cs) with (g := g0)
    as (g & E & Sg & Hq & Fg).
  - intros c g g'. destruct merger; [apply off_merge|apply off_update].
  - exact slots.
  - intros c g Hc Hrun. destruct (Hg c Hc) as [Hne Hi]. specialize (Hf c Hc). destruct (upd c) eqn:Eu.
    + destruct Hi as (En & Er & _). assert (Hu : exists g', update c (m_src (fst p)) g = Some g' /\ run (c_fn c) (snd p c ++ R c) (look c g')).
      { rewrite Er in *. apply update_run; assumption. }
      unfold upd in Eu. destruct merger; [|exact Hu]. cbn [negb orb] in Eu. unfold merge. rewrite Eu. exact Hu.
    + destruct Hi as (A & K & Pp). unfold upd in Eu. destruct merger; [|discriminate]. cbn [negb orb] in Eu.
      apply merge_next; assumption.
  - exact Hr.
  - exists g. split; [exact E|]. split; [now apply kept_look|exact Hq].
Qed.

Lemma no_key_rows k c ps : (forall p, In p ps -> group_key gs (m_src (fst p)) <> Some k) -> rowsk k c ps = [].
Proof.
  intros Hn. unfold rowsk. replace (filter (of_key k) ps) with (@nil part); [reflexivity|]. symmetry.
  induction ps as [|p ps IH]; cbn [filter]; [reflexivity|].
  assert (of_key k p = false) as ->; [|apply IH; intros q Hq; apply Hn; right; exact Hq].
  unfold of_key. pose proof (Hn p (or_introl eq_refl)) as H0. destruct (group_key gs (m_src (fst p))) as [k'|]; [|reflexivity].
  destruct (beqb k k') eqn:B; [|reflexivity]. apply beqb_eq in B. congruence.
Qed.

Lemma step ps (p : part) h : good p -> inv ps h -> (forall k c, In c cs -> fits (c_fn c) (rowsk k c (ps ++ [p]))) ->
  exists h', agg_row merger gs cs h (fst p) = Some h' /\ inv (ps ++ [p]) h'.
Proof.
  intros Hg (N & Hin & Hcov) Hf. unfold agg_row. destruct Hg as [(k & Ek) Hg0]. assert (Hg : good p) by (split; eauto). rewrite Ek.
  assert (KEEP : forall (h' : hmap), (forall x, In x (map fst h') <-> x = k \/ In x (map fst h)) ->
    (forall q, In q ps -> exists k', group_key gs (m_src (fst q)) = Some k' /\ In k' (map fst h)) ->
    forall q, In q (ps ++ [p]) -> exists k', group_key gs (m_src (fst q)) = Some k' /\ In k' (map fst h')).
  { intros h' Hh' Hc q Hq. apply in_app_iff in Hq. destruct Hq as [Hq|[<-|[]]].
    - destruct (Hc q Hq) as (k' & E & I0). exists k'. split; [exact E|]. apply Hh'. auto.
    - exists k. split; [exact Ek|]. apply Hh'. auto. }
  destruct (hfind k h) as [g0|] eqn:Eh.
  - apply hfind_in in Eh. destruct (Hin k g0 Eh) as (Ek0 & (p0 & Hp0 & Es0) & Hr0).
    destruct (add_next p g0 (fun c => rowsk k c ps) Hg Hr0) as (g & E & Sg & Hr).
    + intros c Hc. specialize (Hf k c Hc). rewrite (rowsk_app k c ps [p]), (rowsk_one k c p Ek) in Hf. eapply fits_perm; [apply Permutation_app_comm|exact Hf].
    + rewrite E. exists (hput k g h). split; [reflexivity|]. split; [now apply hput_nodup|]. split.
      * intros k1 g1 H1. apply (hput_in k g h N) in H1. destruct H1 as [[-> ->]|[Ne H1]].
        -- split; [destruct Sg as [Sg _]; rewrite Sg; exact Ek0|]. split; [exists p0; split; [apply in_app_iff; auto|eapply kept_trans; eauto]|].
           intros c Hc. rewrite rowsk_app, (rowsk_one k c p Ek). eapply run_perm; [apply Permutation_app_comm|]. apply Hr, Hc.
        -- destruct (Hin k1 g1 H1) as (A & (q & Hq & B) & C). split; [exact A|]. split; [exists q; split; [apply in_app_iff; auto|exact B]|].
           intros c Hc. rewrite rowsk_app, (rowsk_other k1 k c p Ek Ne), app_nil_r. apply C, Hc.
      * left. destruct Hcov as [Hcov|(-> & _)]; [|contradiction]. apply KEEP; [apply hput_keys|exact Hcov].
  - destruct (merger && match gs with [] => true | _ => false end && forallb (fun c => is_initialize c (fst p)) cs) eqn:Ed.
    + (* dropped *)
      apply andb_true_iff in Ed. destruct Ed as [Ed Ei]. apply andb_true_iff in Ed. destruct Ed as [Em Eg].
      assert (Eg' : gs = []) by (destruct gs; [reflexivity|discriminate]). rewrite forallb_forall in Ei.
      assert (Hnp : forall c, In c cs -> nothing (c_fn c) (snd p c)).
      { intros c Hc. specialize (Ei c Hc). destruct (Hg0 c Hc) as [_ Hi]. apply (init_nothing c (fst p)); [exact Ei|].
        destruct (upd c) eqn:Eu; [|apply Hi]. unfold upd in Eu. rewrite Em in Eu. cbn [negb orb] in Eu.
        unfold is_initialize in Ei. rewrite Eu in Ei. discriminate. }
      exists h. split; [reflexivity|].
      assert (Eh0 : h = []).
      { destruct h as [|[k1 g1] h1]; [reflexivity|]. exfalso. destruct (Hin k1 g1 (or_introl eq_refl)) as (A & _).
        rewrite Eg' in A, Ek. unfold group_key in A, Ek. cbn in A, Ek. assert (k1 = k) by congruence. subst k1.
        apply hfind_none in Eh. apply Eh. left; reflexivity. }
      subst h. split; [constructor|]. split; [intros k1 g1 []|]. right. split; [reflexivity|]. split; [exact Eg'|]. split; [exact Em|].
      intros q c Hq Hc. apply in_app_iff in Hq. destruct Hq as [Hq|[<-|[]]]; [|auto].
      destruct Hcov as [Hcov|(_ & _ & _ & Hc2)]; [|auto]. destruct (Hcov q Hq) as (k' & _ & []).
    + destruct (add_first p k Hg Ek) as (g & E & Sg & Hr).
      { intros c Hc. specialize (Hf k c Hc). rewrite rowsk_app, (rowsk_one k c p Ek) in Hf. apply fits_app in Hf. tauto. }
      rewrite E. exists (hput k g h). split; [reflexivity|]. split; [now apply hput_nodup|]. split.
      * intros k1 g1 H1. apply (hput_in k g h N) in H1. destruct H1 as [[-> ->]|[Ne H1]].
        -- split; [destruct Sg as [Sg _]; rewrite Sg; exact Ek|]. split; [exists p; split; [apply in_app_iff; cbn; auto|exact Sg]|].
           intros c Hc. rewrite rowsk_app, (rowsk_one k c p Ek). destruct Hcov as [Hcov|(Eh0 & Eg & _ & Hno)].
           ++ rewrite no_key_rows; [apply Hr, Hc|]. intros q Hq Eq. destruct (Hcov q Hq) as (k' & A & B). apply hfind_none in Eh. congruence.
           ++ apply nothing_run; [|apply Hr, Hc]. unfold rowsk. clear - Hno Hc. induction ps as [|q ps IH]; [apply nothing_nil|].
              cbn [filter]. assert (IH' : nothing (c_fn c) (concat (map (fun p0 : part => snd p0 c) (filter (of_key k) ps)))).
              { apply IH. intros q0 c0 Hq0. apply Hno. right; exact Hq0. }
              destruct (of_key k q); [|exact IH']. cbn [map concat]. apply nothing_app; [apply Hno; [left; reflexivity|exact Hc]|exact IH'].
        -- destruct (Hin k1 g1 H1) as (A & (q & Hq & B) & C). split; [exact A|]. split; [exists q; split; [apply in_app_iff; auto|exact B]|].
           intros c Hc. rewrite rowsk_app, (rowsk_other k1 k c p Ek Ne), app_nil_r. apply C, Hc.
      * left. destruct Hcov as [Hcov|(-> & Eg & _ & _)]; [apply KEEP; [apply hput_keys|exact Hcov]|].
        intros q Hq. exists k. split; [|apply hput_keys; auto]. rewrite Eg in *. unfold group_key in *. cbn in *. exact Ek.
Qed.

Lemma steps qs : forall ps h, inv ps h -> Forall good qs -> (forall k c, In c cs -> fits (c_fn c) (rowsk k c (ps ++ qs))) ->
  exists h', agg_rows merger gs cs h (map fst qs) = Some h' /\ inv (ps ++ qs) h'.
Proof.
  induction qs as [|p qs IH]; intros ps h Hi Hg Hf; cbn [map agg_rows].
  - exists h. rewrite app_nil_r. auto.
  - inversion Hg as [|? ? Hp Hq]; subst. destruct (step ps p h Hp Hi) as (h1 & E1 & I1).
    + intros k c Hc. specialize (Hf k c Hc). change (p :: qs) with ([p] ++ qs) in Hf. rewrite app_assoc, rowsk_app in Hf. apply fits_app in Hf. tauto.
    + rewrite E1. destruct (IH (ps ++ [p]) h1 I1 Hq) as (h' & E' & I'); [rewrite <- app_assoc; exact Hf|].
      exists h'. split; [exact E'|]. rewrite <- app_assoc in I'. exact I'.
Qed.

(* the rows that leave the node *)
Definition sent_ok (c : call) (R : list row) (m : mrow) : Prop :=
  match c_fn c with FConcatBy _ _ _ => True | f => acc f R (m_int m (c_slot c)) end /\
  (merger = true -> agg_spec (c_fn c) R (result c m)).

Lemma final_all_ok (R : list Z -> call -> list row) h :
  (forall k g c, In (k, g) h -> In c cs -> run (c_fn c) (R k c) (look c g) /\ fits (c_fn c) (R k c) /\ R k c <> [] /\ (merger = true -> sum_ok (c_fn c) (R k c))) ->
  exists hm, map fst hm = map fst h /\ final_all merger cs h = Some (map snd hm) /\
    forall k m, In (k, m) hm -> (exists g, In (k, g) h /\ kept m (g_row g)) /\ forall c, In c cs -> sent_ok c (R k c) m.
Proof.
  induction h as [|[k g] h IH]; intros Hr.
  - exists []. split; [reflexivity|]. split; [reflexivity|]. intros k m [].
  - destruct IH as (hm & Ek & Ef & Hm); [intros k1 g1 c H1; apply Hr; right; exact H1|].
    destruct (all_calls_ok (finalize merger) (fun c v => run (c_fn c) (R k c) v)
      (fun c v => match c_fn c with FConcatBy _ _ _ => True | f => acc f (R k c) (v_int v) end /\
         (merger = true -> agg_spec (c_fn c) (R k c) (match c_fn c with FAvg _ | FMulti _ _ _ => v_fin v | _ => v_int v end))) cs)
      with (g := g) as (g' & E' & Sg & Hq & Fg).
    + intros c g1 g2. apply off_final.
    + exact slots.
    + intros c g1 Hc Hrun. destruct (Hr k g c (or_introl eq_refl) Hc) as (_ & Hf & Hne & Hs).
      destruct (final_ok merger c g1 (R k c) Hrun Hf Hne) as (g2 & E2 & A & B). exists g2. split; [exact E2|].
      split; [exact A|]. intros Em. specialize (B Em (Hs Em)). unfold result in B. destruct (c_fn c); exact B.
    + intros c Hc. apply (Hr k g c); [left; reflexivity|exact Hc].
    + exists ((k, g_row g') :: hm). cbn [map fst snd final_all]. rewrite E', Ef. split; [now rewrite Ek|]. split; [reflexivity|].
      intros k1 m1 [E1|H1].
      * injection E1 as <- <-. split; [exists g; split; [left; reflexivity|now apply kept_look]|]. intros c Hc. destruct (Hq c Hc) as [A B].
        split; [exact A|]. intros Em. specialize (B Em). unfold result. destruct (c_fn c); exact B.
      * destruct (Hm k1 m1 H1) as ((g1 & Hg1 & S1) & C). split; [exists g1; split; [right; exact Hg1|exact S1]|exact C].
Qed.

Lemma part_ok_app f a b : part_ok f a -> part_ok f (a ++ b).
Proof.
  destruct f; cbn [part_ok]; auto; [destruct o; auto|]; rewrite nonnull_app; intros Hn E; apply app_eq_nil in E; destruct E; contradiction.
Qed.
Lemma part_sum f a : part_ok f a -> sum_ok f a.
Proof. destruct f; cbn; auto. destruct sum; auto. Qed.

Theorem stage_ok ps :
  Forall good ps -> (forall k c, In c cs -> fits (c_fn c) (rowsk k c ps)) ->
  (merger = true -> gs = [] -> ps = [] -> forall c, In c cs -> match c_fn c with FMulti true _ _ => False | _ => True end) ->
  exists out, stage merger merger gs cs (map fst ps) = Some out /\
   ((exists hm, out = map snd hm /\ NoDup (map fst hm) /\
       (forall k m, In (k, m) hm -> group_key gs (m_src m) = Some k /\ (exists p, In p ps /\ kept m (fst p)) /\
          forall c, In c cs -> sent_ok c (rowsk k c ps) m) /\
       (forall p, In p ps -> exists k, group_key gs (m_src (fst p)) = Some k /\ In k (map fst hm)) /\
       (merger = true -> gs = [] -> hm <> [])) \/
    (merger = true /\ gs = [] /\ (forall p c, In p ps -> In c cs -> nothing (c_fn c) (snd p c)) /\
       exists m, out = [m] /\ forall c, In c cs -> (c_distinct c = false -> is_initialize c m = true) /\
         forall R, nothing (c_fn c) R -> agg_spec (c_fn c) R (result c m))).
Proof.
  intros Hg Hf Hmul0. destruct (steps ps [] []) as (h & E & N & Hin & Hcov).
  - split; [constructor|]. split; [intros k g []|]. left. intros p [].
  - exact Hg.
  - exact Hf.
  - cbn [app] in *. unfold stage. rewrite E.
    assert (NORMAL : (forall k g c, In (k, g) h -> In c cs -> run (c_fn c) (rowsk k c ps) (look c g) /\ fits (c_fn c) (rowsk k c ps) /\
        rowsk k c ps <> [] /\ (merger = true -> sum_ok (c_fn c) (rowsk k c ps)))).
    { intros k g c Hkg Hc. destruct (Hin k g Hkg) as (Ek & (p & Hp & Es & _) & Hr). split; [apply Hr, Hc|]. split; [apply Hf, Hc|].
      rewrite Forall_forall in Hg. destruct (Hg p Hp) as [_ Hi]. destruct (Hi c Hc) as [Hne Hi2].
      apply in_split in Hp. destruct Hp as (l1 & l2 & ->). rewrite Es in Ek.
      assert (EX : rowsk k c (l1 ++ p :: l2) = rowsk k c l1 ++ snd p c ++ rowsk k c l2).
      { change (p :: l2) with ([p] ++ l2). rewrite !rowsk_app, (rowsk_one k c p Ek). reflexivity. }
      split; [rewrite EX; intros E0; apply app_eq_nil in E0; destruct E0 as [_ E0]; apply app_eq_nil in E0; tauto|].
      intros Em. destruct (upd c) eqn:Eu.
      - destruct Hi2 as (_ & _ & Hmul). specialize (Hmul Em). unfold sum_ok. destruct (c_fn c); auto. contradiction.
      - apply part_sum. rewrite EX. destruct Hi2 as (_ & _ & Hpp).
        destruct (c_fn c); cbn [part_ok] in *; auto; [destruct o; auto|]; rewrite !nonnull_app; intros E0; apply app_eq_nil in E0;
          destruct E0 as [_ E0]; apply app_eq_nil in E0; tauto. }
    destruct (final_all_ok (fun k c => rowsk k c ps) h NORMAL) as (hm & Ekm & Ef & Hm).
    assert (HMAIN : forall k m, In (k, m) hm -> group_key gs (m_src m) = Some k /\ (exists p, In p ps /\ kept m (fst p)) /\
          forall c, In c cs -> sent_ok c (rowsk k c ps) m).
    { intros k m Hkm. destruct (Hm k m Hkm) as ((g & Hg1 & Es) & Hs). destruct (Hin k g Hg1) as (A & (p & Hp & B) & _).
      split; [destruct Es as [Es _]; rewrite Es; exact A|]. split; [exists p; split; [exact Hp|eapply kept_trans; eauto]|exact Hs]. }
    assert (FIN : merger = true -> gs = [] -> h = [] -> 
           exists m, final_all merger cs [([0], fold_left (fun g c => initialize true c g) cs (G null_row (fun _ => aux0)))] = Some [m] /\
             (forall p c, In p ps -> In c cs -> nothing (c_fn c) (snd p c)) /\
             forall c, In c cs -> (c_distinct c = false -> is_initialize c m = true) /\ forall R, nothing (c_fn c) R -> agg_spec (c_fn c) R (result c m)).
    { intros Em Egs Eh.
      assert (NO : forall p c, In p ps -> In c cs -> nothing (c_fn c) (snd p c)).
      { destruct Hcov as [Hcov|(_ & _ & _ & Hno)]; [|exact Hno]. intros p c Hp. destruct (Hcov p Hp) as (k & _ & B). rewrite Eh in B. destruct B. }
      assert (Hsum : forall c, In c cs -> match c_fn c with FMulti true _ _ => False | _ => True end).
      { intros c Hc. destruct ps as [|p ps'] eqn:Eps; [now apply Hmul0|]. specialize (NO p c (or_introl eq_refl) Hc).
        inversion Hg as [|? ? Hp _]; subst. destruct Hp as [_ Hi]. destruct (Hi c Hc) as [_ Hi2]. destruct (upd c).
        - destruct Hi2 as (_ & _ & Hx). specialize (Hx Em). destruct (c_fn c) as [| | | | | | | | | |[] ? ?]; auto.
        - destruct Hi2 as (_ & _ & Hx). destruct (c_fn c) as [| | | | | | | | | |[] ? ?]; auto. }
      destruct (init_all_ok true cs slots (G null_row (fun _ => aux0))) as (_ & I1 & _).
          destruct (all_calls_ok (finalize true)
             (fun c v => v_int v = (match c_fn c with FCountStar | FCount _ => Some zero | _ => None end) /\ v_aux v = aux0)
             (fun c v => (forall R, nothing (c_fn c) R -> agg_spec (c_fn c) R (match c_fn c with FAvg _ | FMulti _ _ _ => v_fin v | _ => v_int v end)) /\
                v_int v = match c_fn c with FCountStar | FCount _ => Some zero | FMulti _ _ _ => Some (AV (VStr [])) | _ => None end) cs)
            with (g := fold_left (fun g c => initialize true c g) cs (G null_row (fun _ => aux0))) as (g' & E' & _ & Hq & _).
          - intros c g1 g2. apply off_final.
          - exact slots.
          - intros c g1 Hc [A B]. destruct (made_up c g1 [] A B (nothing_nil _) (Hsum c Hc)) as (g2 & E2 & _). exists g2. split; [exact E2|]. split.
            + intros R HR. destruct (made_up c g1 R A B HR (Hsum c Hc)) as (g3 & E3 & R3). assert (g3 = g2) by congruence. subst g3.
              unfold result in R3. destruct (c_fn c); exact R3.
            + unfold finalize in E2. rewrite ?look_bits_val, ?look_slot, ?look_x, ?A, ?B in E2. cbn [x_batch x_bits x_set aux0 fst snd negb smerge] in E2.
              destruct (c_fn c); injection E2 as <-; rewrite ?look_set_slot, ?look_set_fin, ?look_set_set; cbn [v_int]; auto.
          - intros c Hc. destruct (I1 c Hc) as (gi & Ei & Ev). rewrite Ev. unfold initialize.
            assert (Es : slot c gi = None) by (rewrite look_slot, Ei; reflexivity).
            destruct (c_fn c); unfold or_slot; rewrite ?Es, ?look_set_slot; cbn [v_int v_aux]; rewrite ?Ei; split; reflexivity.
          - exists (g_row g'). cbn [final_all]. rewrite Em, E'. split; [reflexivity|]. split; [exact NO|]. intros c Hc. destruct (Hq c Hc) as [Hq1 Hq2]. split.
            + intros Hd. unfold is_initialize. rewrite Hd. cbn [v_int look] in Hq2. rewrite Hq2. destruct (c_fn c); reflexivity.
            + intros R HR. specialize (Hq1 R HR). unfold result. destruct (c_fn c); exact Hq1. }
    assert (SPLIT : (h = [] /\ gs = [] /\ merger = true) \/
       (match h, gs with [], [] => if merger || merger then [([0], fold_left (fun g c => initialize true c g) cs (G null_row (fun _ => aux0)))] else [] | _, _ => h end = h
         /\ (merger = true -> gs = [] -> h <> []))).
    { destruct h as [|kg h1].
      - destruct gs; [|right; split; [reflexivity|discriminate]]. destruct merger; [left; auto|right; split; [reflexivity|discriminate]].
      - right. split; [reflexivity|discriminate]. }
    destruct SPLIT as [(Eh & Egs & Em)|[Ehh Hnb]].
    + destruct (FIN Em Egs Eh) as (m & Ef2 & Hno & Hres). exists [m]. split.
      * rewrite Eh, Egs. replace (merger || merger) with true by (rewrite Em; reflexivity). exact Ef2.
      * right. split; [exact Em|]. split; [exact Egs|]. split; [exact Hno|]. exists m. auto.
    + rewrite Ehh, Ef. exists (map snd hm). split; [reflexivity|]. left. exists hm. split; [reflexivity|]. split; [rewrite Ekm; exact N|].
      split; [exact HMAIN|]. split.
      * rewrite Ekm. destruct Hcov as [Hcov|(A & B & C & D)]; [exact Hcov|]. exfalso. now apply Hnb.
      * intros Em Egs Ehm. apply Hnb; auto. rewrite Ehm in Ekm. destruct h; [reflexivity|discriminate].
Qed.
End Stage.
