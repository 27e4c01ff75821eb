(* the regions, the merging node and the two levels together *)
From Coq Require Import List ZArith Bool Lia Sorting.Permutation Sorting.Sorted.
From Verif Require Import Common.Bytes Common.KV Key.Model Key.Spec Agg.Model Agg.Spec Agg.Bits Agg.Sets Agg.Lists Agg.Group Agg.Calls Agg.Steps Agg.Final Agg.Stage.
Import ListNotations.
Local Open Scope Z_scope.

Definition haskey (gs : groups) (k : list Z) (r : row) : bool := match group_key gs r with Some k' => beqb k k' | None => false end.

Lemma haskey_iff gs k r : haskey gs k r = true <-> group_key gs r = Some k.
Proof.
  unfold haskey. destruct (group_key gs r) as [k'|]; [|split; discriminate]. rewrite beqb_eq. split; [intros ->; reflexivity|congruence].
Qed.
Lemma key_same gs r r' k : groupable gs r -> groupable gs r' -> group_key gs r = Some k -> haskey gs k r' = same_group gs r r'.
Proof.
  intros G G' E. destruct (group_key_iff gs r r' G G') as (k1 & k2 & E1 & E2 & Iff). assert (k1 = k) by congruence. subst k1.
  unfold haskey. rewrite E2. destruct (beqb k k2) eqn:B.
  - apply beqb_eq in B. symmetry. now apply Iff.
  - destruct (same_group gs r r'); [|reflexivity]. rewrite (proj2 Iff eq_refl), beqb_refl in B. discriminate.
Qed.
Lemma key_group gs r k rows : groupable gs r -> Forall (groupable gs) rows -> group_key gs r = Some k ->
  filter (haskey gs k) rows = group_of gs r rows.
Proof.
  intros G F E. unfold group_of. apply filter_ext_in. intros x Hx. rewrite Forall_forall in F. apply key_same; auto.
Qed.
Lemma key_exists gs r : groupable gs r -> exists k, group_key gs r = Some k.
Proof. intros G. destruct (group_key_iff gs r r G G) as (k & _ & E & _). eauto. Qed.

Lemma filter_none {A} (f : A -> bool) l : (forall x, In x l -> f x = false) -> filter f l = [].
Proof. induction l as [|x l IH]; intros Hn; [reflexivity|]. cbn [filter]. rewrite (Hn x (or_introl eq_refl)). apply IH. intros y Hy. apply Hn. right; exact Hy. Qed.

(* one part per key: its rows *)
Lemma rowsk_unique gs k c hm (R : mrow -> call -> list row) (keys : list (list Z)) :
  NoDup (map fst hm) -> (forall k' m, In (k', m) hm -> group_key gs (m_src m) = Some k') ->
  forall m, In (k, m) hm -> rowsk gs k c (map (fun km => (snd km, R (snd km))) hm) = R m c.
Proof.
  intros N Hk m Hm. apply in_split in Hm. destruct Hm as (l1 & l2 & ->).
  rewrite map_app in *. cbn [map fst] in *.
  assert (N1 : ~ In k (map fst l1 ++ map fst l2)) by (apply NoDup_remove_2 in N; exact N).
  assert (OTHER : forall l, (forall x, In x l -> In x (l1 ++ (k, m) :: l2) /\ fst x <> k) -> rowsk gs k c (map (fun km => (snd km, R (snd km))) l) = []).
  { intros l Hl. apply no_key_rows. intros p Hp. apply in_map_iff in Hp. destruct Hp as ([k' m'] & <- & Hx). cbn [fst snd].
    destruct (Hl _ Hx) as [Hi Ne]. cbn [fst] in Ne. rewrite (Hk k' m' Hi). congruence. }
  change ((snd (k, m), R (snd (k, m))) :: map (fun km => (snd km, R (snd km))) l2) with
    ([(m, R m)] ++ map (fun km : list Z * mrow => (snd km, R (snd km))) l2).
  rewrite !rowsk_app, (OTHER l1), (OTHER l2).
  - cbn [app]. rewrite app_nil_r. rewrite rowsk_one; [reflexivity|]. cbn [fst]. apply Hk. apply in_app_iff. right; left; reflexivity.
  - intros [k' m'] Hx. split; [apply in_app_iff; right; right; exact Hx|]. cbn [fst]. intros ->. apply N1, in_app_iff. right.
    change k with (fst (k, m')). now apply in_map.
  - intros [k' m'] Hx. split; [apply in_app_iff; left; exact Hx|]. cbn [fst]. intros ->. apply N1, in_app_iff. left.
    change k with (fst (k, m')). now apply in_map.
Qed.

Section Top.
Variable gs : groups.
Variable cs : list call.
Hypothesis slots : NoDup (map c_slot cs).

Definition no_by (c : call) : Prop := match c_fn c with FConcatBy _ _ _ => False | _ => True end.

Lemma update_parts k c rows : rowsk gs k c (map (fun r => (scan_row r, fun _ : call => [r])) rows) = filter (haskey gs k) rows.
Proof.
  unfold rowsk. induction rows as [|r rows IH]; [reflexivity|]. cbn [map filter]. unfold of_key at 1, haskey at 1. cbn [fst m_src scan_row].
  destruct (group_key gs r) as [k'|]; [|exact IH]. destruct (beqb k k'); [|exact IH]. cbn [map concat snd app]. now rewrite IH.
Qed.

Lemma fits_nil f : fits f [].
Proof.
  destruct f; cbn; auto; try lia. split; [intros v []|]. intros s _ I0. destruct s as [|x s]; [cbn; lia|]. destruct (I0 x (or_introl eq_refl)).
Qed.

Definition sent_by (region : list row) (p : part) : Prop :=
  In (m_src (fst p)) region /\ (forall s, ~ In s (map c_slot cs) -> m_int (fst p) s = None) /\
  forall c, In c cs -> snd p c = group_of gs (m_src (fst p)) region /\ acc (c_fn c) (snd p c) (m_int (fst p) (c_slot c)).

Lemma store_ok rows : Forall (groupable gs) rows -> (forall c, In c cs -> no_by c) ->
  (forall c r, In c cs -> In r rows -> fits (c_fn c) (group_of gs r rows)) ->
  exists SP, store gs cs rows = Some (map fst SP) /\ (forall p, In p SP -> sent_by rows p) /\
    forall k c, rowsk gs k c SP = filter (haskey gs k) rows.
Proof.
  intros Hg Hby Hf.
  assert (FK : forall k c, In c cs -> fits (c_fn c) (filter (haskey gs k) rows)).
  { intros k c Hc. destruct (filter (haskey gs k) rows) as [|r l] eqn:E; [apply fits_nil|]. rewrite <- E.
    assert (Hr : In r (filter (haskey gs k) rows)) by (rewrite E; left; reflexivity). apply filter_In in Hr. destruct Hr as [Hr Hk].
    apply haskey_iff in Hk. rewrite Forall_forall in Hg. rewrite (key_group gs r k rows (Hg r Hr)); [apply Hf; auto|now rewrite Forall_forall|exact Hk]. }
  destruct (stage_ok false gs cs slots (map (fun r => (scan_row r, fun _ : call => [r])) rows)) as (out & E & [A|(B & _)]); [| | | |discriminate B].
  - rewrite Forall_forall in *. intros p Hp. apply in_map_iff in Hp. destruct Hp as (r & <- & Hr). split; [apply key_exists, Hg, Hr|].
    intros c Hc. unfold inp. cbn [upd negb orb fst snd scan_row m_int m_src]. split; [discriminate|]. repeat split. discriminate.
  - intros k c Hc. rewrite update_parts. apply FK, Hc.
  - discriminate.
  - rewrite map_map in E. cbn [fst] in E. change (map (fun x => scan_row x) rows) with (map scan_row rows) in E.
    destruct A as (hm & Eo & N & Hm & Hc & _). exists (map (fun km => (snd km, fun _ : call => group_of gs (m_src (snd km)) rows)) hm).
    assert (HR : forall k m, In (k, m) hm -> In (m_src m) rows).
    { intros k m Hi. destruct (Hm k m Hi) as (_ & (p & Hp & Kp) & _). apply in_map_iff in Hp. destruct Hp as (r & <- & Hr).
      destruct Kp as [Ep _]. rewrite Ep. exact Hr. }
    assert (GR : forall k m, In (k, m) hm -> filter (haskey gs k) rows = group_of gs (m_src m) rows).
    { intros k m Hi. apply key_group; [|exact Hg|apply (Hm k m Hi)]. rewrite Forall_forall in Hg. apply Hg. eapply HR; eauto. }
    split; [|split].
    + unfold store. rewrite E, Eo, map_map. reflexivity.
    + intros p Hp. apply in_map_iff in Hp. destruct Hp as ([k m] & <- & Hi). cbn [fst snd]. destruct (Hm k m Hi) as (Ek & (p & Hp & Kp) & Hs).
      split; [eapply HR; eauto|]. split.
      * intros s Hn. cbn [fst]. destruct Kp as [_ Kp]. rewrite (Kp s Hn). apply in_map_iff in Hp. destruct Hp as (r & <- & _). reflexivity.
      * intros c Hcc. split; [reflexivity|]. cbn [fst snd]. rewrite <- (GR k m Hi), <- (update_parts k c rows). destruct (Hs c Hcc) as [Ha _].
        specialize (Hby c Hcc). unfold no_by in Hby. destruct (c_fn c); try exact Ha. contradiction.
    + intros k c. destruct (in_dec (list_eq_dec Z.eq_dec) k (map fst hm)) as [Hi|Hi].
      * apply in_map_iff in Hi. destruct Hi as ([k' m] & Ek & Hi). cbn [fst] in Ek. subst k'.
        rewrite (rowsk_unique gs k c hm (fun m _ => group_of gs (m_src m) rows) (map fst hm) N) with (m := m); [symmetry; eapply GR; eauto| |exact Hi].
        intros k' m' Hi'. apply (Hm k' m' Hi').
      * rewrite no_key_rows.
        -- symmetry. apply filter_none. intros r Hr. destruct (haskey gs k r) eqn:Ek; [|reflexivity]. exfalso. apply haskey_iff in Ek.
           destruct (Hc (scan_row r, fun _ => [r])) as (k' & E' & I').
           { change (scan_row r, fun _ : call => [r]) with ((fun r => (scan_row r, fun _ : call => [r])) r). now apply in_map. }
           cbn [fst scan_row m_src] in E'. congruence.
        -- intros p Hp Ek. apply in_map_iff in Hp. destruct Hp as ([k' m] & <- & Hi'). cbn [fst snd] in Ek. destruct (Hm k' m Hi') as (Ek' & _).
           apply Hi. assert (k' = k) by congruence. subst k'. change k with (fst (k, m)). now apply in_map.
Qed.

Lemma group_of_app r a b : group_of gs r (a ++ b) = group_of gs r a ++ group_of gs r b.
Proof. apply filter_app. Qed.

Lemma stores_ok regions : Forall (groupable gs) (concat regions) -> (forall c, In c cs -> no_by c) ->
  (forall c r, In c cs -> In r (concat regions) -> fits (c_fn c) (group_of gs r (concat regions))) ->
  exists SP, stores gs cs regions = Some (map fst SP) /\ (forall p, In p SP -> exists region, In region regions /\ sent_by region p) /\
    forall k c, rowsk gs k c SP = filter (haskey gs k) (concat regions).
Proof.
  induction regions as [|rows regions IH]; intros Hg Hby Hf; cbn [stores concat] in *.
  - exists []. split; [reflexivity|]. split; [intros p []|reflexivity].
  - apply Forall_app in Hg. destruct Hg as [Hg1 Hg2].
    destruct (store_ok rows Hg1 Hby) as (S1 & E1 & P1 & R1).
    { intros c r Hc Hr. specialize (Hf c r Hc (proj2 (in_app_iff _ _ _) (or_introl Hr))). rewrite group_of_app in Hf. now apply fits_app in Hf. }
    destruct (IH Hg2 Hby) as (S2 & E2 & P2 & R2).
    { intros c r Hc Hr. specialize (Hf c r Hc (proj2 (in_app_iff _ _ _) (or_intror Hr))). rewrite group_of_app in Hf. now apply fits_app in Hf. }
    exists (S1 ++ S2). rewrite E1, E2, map_app. split; [reflexivity|]. split.
    + intros p Hp. apply in_app_iff in Hp. destruct Hp as [Hp|Hp]; [exists rows; split; [left; reflexivity|auto]|].
      destruct (P2 p Hp) as (rg & A & B). exists rg. split; [right; exact A|exact B].
    + intros k c. now rewrite rowsk_app, R1, R2, filter_app.
Qed.

Lemma rowsk_perm k c a b : Permutation a b -> Permutation (rowsk gs k c a) (rowsk gs k c b).
Proof.
  intros P. unfold rowsk. apply (filter_perm (of_key gs k)) in P. apply (Permutation_map (fun p => snd p c)) in P.
  induction P; cbn [concat].
  - constructor.
  - now apply Permutation_app_head.
  - rewrite !app_assoc. apply Permutation_app_tail, Permutation_app_comm.
  - etransitivity; eauto.
Qed.
Lemma arrival (SP : list part) arrived : Permutation (map fst SP) arrived -> exists SP', arrived = map fst SP' /\ Permutation SP SP'.
Proof. intros P. apply Permutation_sym in P. apply Permutation_map_inv in P. destruct P as (S3 & E & P). exists S3. split; [exact E|exact P]. Qed.

(* the merging node *)
Lemma merged all (ps : list part) (Rel : call -> list row -> list row -> Prop) :
  Forall (groupable gs) all -> Forall (good true gs cs) ps -> (forall p, In p ps -> In (m_src (fst p)) all) ->
  (forall r, In r all -> exists p, In p ps /\ group_key gs (m_src (fst p)) = group_key gs r) ->
  (forall k c, In c cs -> Rel c (filter (haskey gs k) all) (rowsk gs k c ps)) ->
  (forall k c, In c cs -> fits (c_fn c) (rowsk gs k c ps)) ->
  (gs = [] -> all = [] -> forall c, In c cs -> match c_fn c with FMulti true _ _ => False | _ => True end) ->
  exists out, stage true true gs cs (map fst ps) = Some out /\
    answer gs all (fun rows m => forall c, In c cs -> exists R, Rel c rows R /\ agg_spec (c_fn c) R (result c m)) out /\
    ((exists hm, out = map snd hm /\ NoDup (map fst hm) /\
       (forall k m, In (k, m) hm -> group_key gs (m_src m) = Some k /\ (exists p, In p ps /\ kept cs m (fst p)) /\
         forall c, In c cs -> sent_ok true c (rowsk gs k c ps) m) /\
       (forall p, In p ps -> exists k, group_key gs (m_src (fst p)) = Some k /\ In k (map fst hm))) \/
     (gs = [] /\ (forall p c, In p ps -> In c cs -> nothing (c_fn c) (snd p c)) /\
       exists m, out = [m] /\ forall c, In c cs -> (c_distinct c = false -> is_initialize c m = true))).
Proof.
  intros Hg Hgood Hin Hcov Hrel Hf Hmul.
  destruct (stage_ok true gs cs slots ps Hgood Hf) as (out & E & D).
  { intros _ Eg Ep c Hc. apply Hmul; auto. destruct all as [|r all']; [reflexivity|]. exfalso. destruct (Hcov r (or_introl eq_refl)) as (p & Hp & _).
    rewrite Ep in Hp. destruct Hp. }
  exists out. split; [exact E|].
  assert (NOG : gs = [] -> exists k0, (forall r, group_key gs r = Some k0) /\ filter (haskey gs k0) all = all /\
     forall c, rowsk gs k0 c ps = concat (map (fun p => snd p c) ps)).
  { intros ->. assert (EK : exists k0, forall r, group_key [] r = Some k0) by (unfold group_key; cbn; eauto). destruct EK as (k0 & EK).
    exists k0. split; [exact EK|]. split.
    - clear - EK. induction all as [|r l IH]; [reflexivity|]. cbn [filter]. unfold haskey at 1. rewrite EK, beqb_refl. now rewrite IH.
    - intros c. unfold rowsk. f_equal. f_equal. clear - EK. induction ps as [|p l IH]; [reflexivity|]. cbn [filter]. unfold of_key at 1. rewrite EK, beqb_refl. now rewrite IH. }
  destruct D as [(hm & Eo & N & Hm & Hc & Hne)|(_ & Egs & Hno & m & Eo & Hs)].
  - assert (HR : forall k m, In (k, m) hm -> In (m_src m) all).
    { intros k m Hi. destruct (Hm k m Hi) as (_ & (p & Hp & Kp & _) & _). rewrite Kp. auto. }
    split; [|left; exists hm; auto].
    destruct gs as [|g1 gs1] eqn:Egs.
    + cbn [answer]. destruct (NOG eq_refl) as (k0 & EK & Ef & Er). specialize (Hne eq_refl eq_refl).
      destruct hm as [|[k m] [|[k2 m2] hm']]; [contradiction| |].
      * exists m. split; [exact Eo|]. intros c Hcc. destruct (Hm k m (or_introl eq_refl)) as (Ek & _ & Hs). rewrite EK in Ek. injection Ek as <-.
        exists (rowsk [] k0 c ps). split; [rewrite <- Ef at 1; now apply Hrel|]. apply Hs; [exact Hcc|reflexivity].
      * exfalso. destruct (Hm k m (or_introl eq_refl)) as (Ek & _). destruct (Hm k2 m2 (or_intror (or_introl eq_refl))) as (Ek2 & _).
        rewrite EK in Ek, Ek2. cbn [map fst] in N. inversion N as [|? ? Hn _]; subst. apply Hn. left. congruence.
    + rewrite <- Egs in *. cbn [answer]. assert (X : answer gs all (fun rows m => forall c, In c cs -> exists R, Rel c rows R /\ agg_spec (c_fn c) R (result c m)) out
        <-> (ForallOrdPairs (fun m m' => same_group gs (m_src m) (m_src m') = false) out /\
         (forall r, In r all -> exists m, In m out /\ same_group gs r (m_src m) = true) /\
         (forall m, In m out -> In (m_src m) all /\ forall c, In c cs -> exists R, Rel c (group_of gs (m_src m) all) R /\ agg_spec (c_fn c) R (result c m)))).
      { unfold answer. rewrite Egs. reflexivity. }
      apply X. clear X. rewrite Forall_forall in Hg. split; [|split].
      * rewrite Eo. assert (HK : forall k m, In (k, m) hm -> group_key gs (m_src m) = Some k /\ groupable gs (m_src m)).
        { intros k m Hi. split; [apply (Hm k m Hi)|apply Hg; eapply HR; eauto]. }
        clear - N HK. induction hm as [|[k m] hm IH]; cbn [map fst snd] in *; [constructor|]. inversion N as [|? ? Hn N']; subst.
        constructor; [|apply IH; [exact N'|intros; apply HK; right; assumption]].
        rewrite Forall_forall. intros m' Hm'. apply in_map_iff in Hm'. destruct Hm' as ([k' x] & <- & Hi). cbn [snd].
        destruct (HK k m (or_introl eq_refl)) as [E1 G1]. destruct (HK k' x (or_intror Hi)) as [E2 G2].
        rewrite <- (key_same gs (m_src m) (m_src x) k G1 G2 E1). unfold haskey. rewrite E2. destruct (beqb k k') eqn:B; [|reflexivity].
        apply beqb_eq in B. subst k'. exfalso. apply Hn. change k with (fst (k, x)). now apply in_map.
      * intros r Hr. destruct (Hcov r Hr) as (p & Hp & Ep). destruct (Hc p Hp) as (k & Ek & Ik). apply in_map_iff in Ik. destruct Ik as ([k' m] & E' & Hi).
        cbn [fst] in E'. subst k'. exists m. split; [rewrite Eo; change m with (snd (k, m)); now apply in_map|].
        rewrite <- (key_same gs r (m_src m) k); [apply haskey_iff, (Hm k m Hi)|auto|apply Hg; eapply HR; eauto|congruence].
      * intros m Hi. rewrite Eo in Hi. apply in_map_iff in Hi. destruct Hi as ([k m'] & E' & Hi). cbn [snd] in E'. subst m'.
        split; [eapply HR; eauto|]. intros c Hcc. destruct (Hm k m Hi) as (Ek & _ & Hs). exists (rowsk gs k c ps). split.
        -- rewrite <- (key_group gs (m_src m) k all); [now apply Hrel| | |exact Ek]; [apply Hg; eapply HR; eauto|now rewrite Forall_forall].
        -- apply Hs; [exact Hcc|reflexivity].
  - split; [|right; split; [exact Egs|]; split; [exact Hno|]; exists m; split; [exact Eo|]; intros c Hcc; now apply Hs].
    destruct (NOG Egs) as (k0 & EK & Ef & Er). rewrite Egs at 1. cbn [answer]. exists m. split; [exact Eo|].
    intros c Hcc. exists (rowsk gs k0 c ps). split; [rewrite <- Ef at 1; now apply Hrel|]. destruct (Hs c Hcc) as [_ Hs2]. apply Hs2. rewrite Er. clear - Hno Hcc.
    induction ps as [|q qs IH]; [apply nothing_nil|]. cbn [map concat]. apply nothing_app; [apply Hno; [left; reflexivity|exact Hcc]|].
    apply IH. intros p c0 Hp. apply Hno. right; exact Hp.
Qed.

(* ---- C61 ---- *)
Theorem split_ok regions :
  Forall (groupable gs) (concat regions) ->
  (forall c, In c cs -> c_distinct c = false /\ no_by c) ->
  (forall c r, In c cs -> In r (concat regions) -> fits (c_fn c) (group_of gs r (concat regions))) ->
  (forall c region r, In c cs -> In region regions -> In r region -> part_ok (c_fn c) (group_of gs r region)) ->
  (gs = [] -> concat regions = [] -> forall c, In c cs -> match c_fn c with FMulti true _ _ => False | _ => True end) ->
  exists sent, stores gs cs regions = Some sent /\ forall arrived, Permutation sent arrived ->
    exists out, merge_agg gs cs arrived = Some out /\
      answer gs (concat regions) (fun rows m => forall c, In c cs -> agg_spec (c_fn c) rows (result c m)) out /\
      ((exists hm, out = map snd hm /\ NoDup (map fst hm) /\
         (forall k m, In (k, m) hm -> In (m_src m) (concat regions) /\ group_key gs (m_src m) = Some k /\ (forall s, ~ In s (map c_slot cs) -> m_int m s = None) /\
           forall c, In c cs -> exists R, Permutation R (filter (haskey gs k) (concat regions)) /\ sent_ok true c R m) /\
         (forall r, In r (concat regions) -> exists k, group_key gs r = Some k /\ In k (map fst hm))) \/
       (gs = [] /\ (forall c, In c cs -> nothing (c_fn c) (concat regions)) /\
         exists m, out = [m] /\ forall c, In c cs -> is_initialize c m = true)).
Proof.
  intros Hg Hd Hf Hp Hmul. destruct (stores_ok regions Hg) as (SP & E & Hs & Hr); [intros c Hc; now apply Hd|exact Hf|].
  exists (map fst SP). split; [exact E|]. intros arrived P. destruct (arrival SP arrived P) as (SP' & -> & P').
  assert (INSP : forall p, In p SP' -> In p SP) by (intros p; apply Permutation_in; now apply Permutation_sym).
  rewrite Forall_forall in Hg.
  assert (HIN : forall p, In p SP' -> In (m_src (fst p)) (concat regions)).
  { intros p Hi. destruct (Hs p (INSP p Hi)) as (rg & Irg & A & _). apply in_concat. eauto. }
  assert (FK : forall k c, In c cs -> fits (c_fn c) (filter (haskey gs k) (concat regions))).
  { intros k c Hc. destruct (filter (haskey gs k) (concat regions)) as [|r l] eqn:El; [apply fits_nil|]. rewrite <- El.
    assert (Hr0 : In r (filter (haskey gs k) (concat regions))) by (rewrite El; left; reflexivity). apply filter_In in Hr0. destruct Hr0 as [Hr0 Hk].
    apply haskey_iff in Hk. rewrite (key_group gs r k _ (Hg r Hr0)); [apply Hf; auto|now rewrite Forall_forall|exact Hk]. }
  assert (COVER : forall r, In r (concat regions) -> exists p, In p SP' /\ group_key gs (m_src (fst p)) = group_key gs r).
  { intros r Hr0. destruct (key_exists gs r (Hg r Hr0)) as (k & Ek).
    assert (X : In r (rowsk gs k (Call 0 FCountStar false) SP)) by (rewrite Hr; apply filter_In; split; [exact Hr0|now apply haskey_iff]).
    unfold rowsk in X. apply in_concat in X. destruct X as (l & Hl & _). apply in_map_iff in Hl. destruct Hl as (p & _ & Hi). apply filter_In in Hi. destruct Hi as [Hi Ho].
    exists p. split; [eapply Permutation_in; eauto|]. rewrite Ek. now apply haskey_iff. }
  destruct (merged (concat regions) SP' (fun _ a b => Permutation b a)) as (out & Eo & An & Mid).
  - now rewrite Forall_forall.
  - rewrite Forall_forall. intros p Hi. split; [apply key_exists, Hg, HIN, Hi|]. intros c Hc. destruct (Hs p (INSP p Hi)) as (rg & Irg & A & B & C).
    destruct (C c Hc) as [Ec Ac]. destruct (Hd c Hc) as [Hdc Hby]. unfold inp, upd. rewrite Hdc. cbn [negb orb]. split.
    + rewrite Ec. intros E0. assert (In (m_src (fst p)) (group_of gs (m_src (fst p)) rg)) as X; [|rewrite E0 in X; destruct X].
      apply filter_In. split; [exact A|apply same_group_refl].
    + split; [exact Ac|]. split; [unfold keyed, no_by in *; destruct (c_fn c); auto; contradiction|]. rewrite Ec. now apply (Hp c rg).
  - exact HIN.
  - exact COVER.
  - intros k c Hc. rewrite <- (Hr k c). apply rowsk_perm. now apply Permutation_sym.
  - intros k c Hc. eapply fits_perm; [apply rowsk_perm, P'|]. rewrite Hr. apply FK, Hc.
  - exact Hmul.
  - exists out. split; [exact Eo|]. split.
    + assert (W : forall rows m, (forall c, In c cs -> exists R, Permutation R rows /\ agg_spec (c_fn c) R (result c m)) ->
        forall c, In c cs -> agg_spec (c_fn c) rows (result c m)).
      { intros rows m X c Hc. destruct (X c Hc) as (R & PR & S0). eapply spec_perm; eauto. }
      clear - An W. unfold answer in *. destruct gs; [destruct An as (m & E & X); exists m; split; [exact E|auto]|].
      destruct An as (A & B & C). split; [exact A|]. split; [exact B|]. intros m Hm. destruct (C m Hm) as [C1 C2]. split; [exact C1|auto].
    + destruct Mid as [(hm & E1 & N1 & M1 & C1)|(Eg & Hno & m & Em & Hini)].
      * left. exists hm. split; [exact E1|]. split; [exact N1|]. split.
        -- intros k m Hi. destruct (M1 k m Hi) as (Ek & (p & Hip & Kp) & Hso). split; [destruct Kp as [Kp _]; rewrite Kp; now apply HIN|]. split; [exact Ek|]. split.
           ++ intros s Hn. destruct Kp as [_ Kp]. rewrite (Kp s Hn). destruct (Hs p (INSP p Hip)) as (_ & _ & _ & B & _). apply B, Hn.
           ++ intros c Hc. exists (rowsk gs k c SP'). split; [|now apply Hso]. rewrite <- (Hr k c). apply rowsk_perm. now apply Permutation_sym.
        -- intros r Hr0. destruct (COVER r Hr0) as (p & Hi & Ep). destruct (C1 p Hi) as (k & Ek & Ik). exists k. split; [congruence|exact Ik].
      * right. split; [exact Eg|]. split; [|exists m; split; [exact Em|]; intros c Hc; apply Hini; [exact Hc|now apply Hd]].
        intros c Hc. assert (X : nothing (c_fn c) (concat (map (fun p => snd p c) SP))).
        { assert (Y : forall l, incl l SP -> nothing (c_fn c) (concat (map (fun p => snd p c) l))).
          { induction l as [|q l IH]; intros Il; [apply nothing_nil|]. cbn [map concat]. apply nothing_app.
            - apply Hno; [|exact Hc]. eapply Permutation_in; [exact P'|]. apply Il. left; reflexivity.
            - apply IH. intros x Hx. apply Il. right; exact Hx. }
          apply Y. intros x Hx. exact Hx. }
        assert (EK : exists k0, forall r, group_key gs r = Some k0) by (rewrite Eg; unfold group_key; cbn; eauto). destruct EK as (k0 & EK).
        specialize (Hr k0 c). assert (E2 : filter (haskey gs k0) (concat regions) = concat regions).
        { clear - EK. induction (concat regions) as [|r l IH]; [reflexivity|]. cbn [filter]. unfold haskey at 1. rewrite EK, beqb_refl. now rewrite IH. }
        rewrite E2 in Hr. rewrite <- Hr. unfold rowsk. assert (E3 : filter (of_key gs k0) SP = SP).
        { clear - EK. induction SP as [|p l IH]; [reflexivity|]. cbn [filter]. unfold of_key at 1. rewrite EK, beqb_refl. now rewrite IH. }
        rewrite E3. exact X.
Qed.
End Top.
