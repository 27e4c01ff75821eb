(* The node gives the outer rows that have, or do not have, a partner. *)
From Coq Require Import List ZArith Bool Arith Lia Sorting.Permutation.
From Verif Require Import Common.Bytes Common.KV Key.Model Key.Spec Join.Model Join.Spec Join.Keys Join.Exec Join.Rows.
From Verif Require Import Subquery.ApplyModel Subquery.ApplySpec Subquery.ApplyExec Subquery.ApplyHash.
Import ListNotations.

Section Drain.
Variables (A : apply) (src : source) (W : list row -> list row -> Prop) (Inv : astate -> nat -> list row -> Prop)
          (meas : astate -> list row -> nat) (Bad Good : Prop).
Hypothesis W_app : forall a b x y, W a x -> W b y -> W (a ++ b) (x ++ y).
Hypothesis Step : forall c s cnt l, Inv s cnt l ->
  match aget_next A src c s with
  | Fail => Bad
  | Batch b true _ => exists xs rest, W b xs /\ Permutation (xs ++ rest) l /\ (rest = [] \/ stopped (ap_limit A) (cnt + length b)) /\ (ap_limit A = None -> Good)
  | Batch b false s' => exists xs l', W b xs /\ Permutation (xs ++ l') l /\ Inv s' (cnt + length b) l' /\ ((1 <= c)%nat -> (meas s' l' < meas s l)%nat)
  end.
Lemma drain_gen : forall caps s cnt l acc, Inv s cnt l ->
  match adrain A src caps s acc with
  | Unfinished => ~ enough caps (meas s l)
  | Error => Bad
  | Rows out => exists d xs rest, out = acc ++ d /\ W d xs /\ Permutation (xs ++ rest) l /\
                (rest = [] \/ stopped (ap_limit A) (cnt + length d)) /\ (ap_limit A = None -> Good)
  end.
Proof.
  induction caps as [|c q IH]; intros s cnt l acc HI; cbn [adrain].
  { intros [X _]. cbn in X. lia. }
  pose proof (Step c s cnt l HI) as X. destruct (aget_next A src c s) as [b [|] s'|]; [| |exact X].
  - destruct X as (xs & rest & X1 & X2 & X3 & X4). exists b, xs, rest. auto.
  - destruct X as (xs & l' & X1 & X2 & X3 & X4). specialize (IH s' (cnt + length b)%nat l' (acc ++ b) X3).
    destruct (adrain A src q s' (acc ++ b)) as [out| |]; [|exact IH|].
    + destruct IH as (d & ys & rest & -> & Y1 & Y2 & Y3 & Y4). exists (b ++ d), (xs ++ ys), rest.
      rewrite <- !app_assoc, app_length, Nat.add_assoc. repeat split; auto. rewrite Y2. exact X2.
    + intros [E F]. inversion F; subst. apply IH. split; [|assumption]. specialize (X4 ltac:(assumption)). cbn in E. lia.
Qed.
End Drain.

Lemma alone_glue n L R o i : alone n L (glue n L R o i) = alone n L o.
Proof.
  unfold alone, glue. apply map_ext_in. intros t Ht. apply in_seq in Ht. cbn [existsb].
  destruct (existsb (Nat.eqb t) L) eqn:E; [|reflexivity]. rewrite nth_seq_map by lia. now rewrite E.
Qed.

Lemma existsb_perm {X} (p : X -> bool) l l' : Permutation l l' -> existsb p l = existsb p l'.
Proof.
  intros P. apply Bool.eq_iff_eq_true. rewrite !existsb_exists. split; intros (x & Hx & E); exists x; split; auto.
  - eapply Permutation_in; eauto.
  - eapply Permutation_in; [symmetry|]; eauto.
Qed.
Lemma filter_existsb {X} (p : X -> bool) l : existsb p l = match filter p l with [] => false | _ => true end.
Proof. induction l as [|x l IH]; [reflexivity|]. cbn. destruct (p x); cbn; auto. Qed.

Section Theorems.
Variables (A : apply) (in_eq : coltype -> coltype -> value -> value -> bool) (on : row -> bool) (sub : row -> list row) (inner outer : list row) (src : source).
Notation n := (ap_size A). Notation L := (ap_outer A). Notation R := (ap_inner A). Notation cs := (ap_conds A).
Notation ps := (apairs A).
Hypothesis Apart : forall t, In t L -> ~ In t R.
Hypothesis Small : forall t, In t L \/ In t R -> (t < n)%nat.
Hypothesis On : decides on cs.
Hypothesis Sup : supplies in_eq A sub inner outer src.
(* in the nested loop only the IN condition checks the equalities *)
Hypothesis Exact : hashes A = false -> in_exact in_eq.
Hypothesis Hash : hashes A = true ->
  (forall o, In o outer -> sub o = inner) /\ in_complete in_eq /\ nulls_apart L R cs outer /\
  (forall l r, join_key L R cs l r -> comparable (s_type l) (s_type r) /\ Forall (typed l) outer /\ Forall (typed r) inner).
Notation rsat := (sat n L R (arest A)).

Lemma in_pass_one o i : in_exact in_eq -> (in_pass in_eq ps [o] i = true <-> Forall (pair_equal o i) ps).
Proof.
  intros EX. unfold in_pass. destruct ps as [|p0 q] eqn:E; [split; [constructor|reflexivity]|]. rewrite <- E. clear E p0 q.
  cbn [existsb]. rewrite orb_false_r, forallb_forall, Forall_forall. split; intros K p Hp; specialize (K p Hp); unfold pair_equal in *.
  - destruct (col o (fst p)) as [v|], (col i (snd p)) as [w|]; try discriminate. now apply EX.
  - destruct K as (v & w & E1 & E2 & X). rewrite E1, E2. apply EX. exists v, w. auto.
Qed.
Lemma on_fetch o i : in_exact in_eq -> in_pass in_eq ps [o] i && rsat o i = on (glue n L R o i).
Proof.
  intros EX. apply Bool.eq_iff_eq_true. rewrite andb_true_iff, in_pass_one by exact EX. unfold sat.
  rewrite filter_spec, result_row_glue, (On (glue n L R o i)) by exact Apart. unfold arest, apairs. rewrite (on_split n L R cs Apart Small o i). tauto.
Qed.
Lemma fetched o : in_exact in_eq -> In o outer -> Permutation (filter (rsat o) (src_row src o)) (partners n L R on o (sub o)).
Proof.
  intros EX Ho. rewrite (perm_filter _ _ _ (sup_row _ _ _ _ _ _ Sup o Ho)), filter_filter. unfold partners.
  erewrite filter_ext; [reflexivity|]. intros i. cbn. now apply on_fetch.
Qed.

Lemma partners_has o : has_partner n L R on sub o = match partners n L R on o (sub o) with [] => false | _ => true end.
Proof. apply filter_existsb. Qed.
Lemma hashes_pairs : hashes A = true -> ps <> [].
Proof. unfold hashes. destruct ps; [discriminate|discriminate]. Qed.

(* the rows for [o] if [got] are the inner rows to be tried *)
Definition result (o : row) : list row :=
  match ap_type A with
  | ASemi => if has_partner n L R on sub o then [alone n L o] else []
  | AAnti => if has_partner n L R on sub o then [] else [alone n L o]
  | ALeft => match partners n L R on o (sub o) with [] => [alone n L o] | qs => map (glue n L R o) qs end
  end.
Definition shown (rows : list row) : list row := match ap_type A with ASemi => outer_columns n L rows | _ => rows end.
Lemma shown_app a b : shown (a ++ b) = shown a ++ shown b.
Proof. unfold shown, outer_columns. destruct (ap_type A); auto. apply map_app. Qed.
Lemma shown_length a : length (shown a) = length a.
Proof. unfold shown, outer_columns. destruct (ap_type A); auto. apply map_length. Qed.
Lemma todo_result o got : Permutation (filter (rsat o) got) (partners n L R on o (sub o)) ->
  Permutation (shown (todo_row n L R (ap_type A) (arest A) o got)) (result o).
Proof.
  intros P. unfold result, shown, todo_row, outer_columns. rewrite partners_has, null_row_alone.
  destruct (ap_type A).
  - destruct (filter (rsat o) got) as [|i q] eqn:E.
    + apply Permutation_nil in P. rewrite P. reflexivity.
    + destruct (partners n L R on o (sub o)); [symmetry in P; apply Permutation_nil in P; discriminate|].
      cbn [map firstn]. rewrite result_row_glue, alone_glue by exact Apart. reflexivity.
  - destruct (filter (rsat o) got) as [|i q] eqn:E.
    + apply Permutation_nil in P. rewrite P. reflexivity.
    + destruct (partners n L R on o (sub o)); [symmetry in P; apply Permutation_nil in P; discriminate|]. reflexivity.
  - destruct (filter (rsat o) got) as [|i q] eqn:E.
    + apply Permutation_nil in P. rewrite P. reflexivity.
    + destruct (partners n L R on o (sub o)) as [|i' q'] eqn:E'; [symmetry in P; apply Permutation_nil in P; discriminate|].
      cbn [map]. rewrite <- !(map_cons (glue n L R o)), <- (map_cons (result_row n L R o)).
      rewrite (map_ext (result_row n L R o) (glue n L R o)) by (intros; now apply result_row_glue). now apply Permutation_map.
Qed.
Lemma todo_results got : (forall o, In o outer -> Permutation (filter (rsat o) (got o)) (partners n L R on o (sub o))) ->
  Permutation (shown (flat_map (fun o => todo_row n L R (ap_type A) (arest A) o (got o)) outer)) (flat_map result outer).
Proof.
  clear Sup Hash. induction outer as [|o q IH]; intros K; cbn [flat_map].
  - unfold shown, outer_columns. destruct (ap_type A); reflexivity.
  - rewrite shown_app. apply Permutation_app; [apply todo_result, K; now left|apply IH; intros; apply K; now right].
Qed.

(* what is to be shown *)
Definition good (out : list row) : Prop :=
  exists rest, Permutation (shown out ++ rest) (flat_map result outer) /\ (rest = [] \/ stopped (ap_limit A) (length out)).

(* ---- nested loop ---- *)

Definition overfull (o : row) : Prop := ap_one_row A = true /\ (1 < length (src_row src o))%nat.
Lemma nested_run caps : hashes A = false -> (ap_type A = ALeft -> ap_one_row A = true \/ forall o, (length (src_row src o) <= 1)%nat) -> outer <> [] ->
  match arun A src outer caps with
  | Unfinished => ~ enough caps (length outer)
  | Error => exists o, In o outer /\ overfull o
  | Rows out => good out /\ (ap_limit A = None -> forall o, In o outer -> ~ overfull o)
  end.
Proof.
  intros NH LO NE. specialize (Exact NH). unfold arun, aopen. destruct outer as [|o q] eqn:EO; [contradiction|]. rewrite NH. rewrite <- EO in *.
  destruct (fetch_checked (ap_one_row A) (src_row src) o) as [rows|] eqn:F.
  2: { apply fetch_none in F as [F1 F2]. exists o. rewrite EO. split; [now left|split; auto]. }
  apply fetch_some in F as [-> F].
  set (Inv := fun (s : astate) (cnt : nat) (l : list row) => exists os is, s = TNested os is cnt /\
     l = nested_todo n L R (ap_type A) (arest A) (src_row src) os is /\ (ap_type A = ALeft -> (length is <= 1)%nat) /\ incl os outer /\
     (forall x, In x outer -> In x (unfetched os is) \/ fitting (ap_one_row A) (src_row src) x)).
  assert (I0 : Inv (TNested outer (src_row src o) 0) 0 (nested_todo n L R (ap_type A) (arest A) (src_row src) outer (src_row src o))).
  { exists outer, (src_row src o). repeat split; auto.
    - intros J. destruct (LO J) as [Y|Y]; [exact (F Y)|apply Y].
    - apply incl_refl.
    - intros x Hx. unfold unfetched. destruct (src_row src o); [now left|]. rewrite EO in Hx |- *. cbn [tl]. destruct Hx as [<-|Hx]; [right; exact F|now left]. }
  pose proof (drain_gen A src eq Inv (fun s _ => match s with TNested os _ _ => length os | _ => O end) (exists x, In x outer /\ overfull x) (forall x, In x outer -> ~ overfull x)) as D.
  specialize (D ltac:(intros; congruence)).
  assert (ST : forall c s cnt l, Inv s cnt l ->
    match aget_next A src c s with
    | Fail => exists x, In x outer /\ overfull x
    | Batch b true _ => exists xs rest, b = xs /\ Permutation (xs ++ rest) l /\ (rest = [] \/ stopped (ap_limit A) (cnt + length b)) /\ (ap_limit A = None -> forall x, In x outer -> ~ overfull x)
    | Batch b false s' => exists xs l', b = xs /\ Permutation (xs ++ l') l /\ Inv s' (cnt + length b) l' /\ ((1 <= c)%nat -> (match s' with TNested os _ _ => length os | _ => O end < match s with TNested os _ _ => length os | _ => O end)%nat)
    end).
  { intros c s cnt l (os & is & -> & -> & I1 & I2 & I4). cbn [aget_next].
    pose proof (nested_loop_spec n L R (ap_type A) (arest A) (ap_limit A) (ap_one_row A) (src_row src) LO c os is [] cnt I1) as X.
    destruct (nested_loop n L R (ap_type A) (arest A) (ap_limit A) (ap_one_row A) c (src_row src) os is [] cnt) as [b [|] [[os' is'] cnt']|].
    - destruct X as (d & rest & -> & E & E2 & E3). cbn [app]. exists d, rest. rewrite E. repeat split; auto.
      intros LN x Hx [O1 O2]. specialize (E3 LN). destruct (I4 x Hx) as [Y|Y].
      + rewrite Forall_forall in E3. specialize (E3 x Y O1). lia.
      + specialize (Y O1). lia.
    - destruct X as (d & -> & -> & E & E2 & E3 & E4 & E6 & E5). cbn [app] in *. exists d, (nested_todo n L R (ap_type A) (arest A) (src_row src) os' is').
      rewrite E2 in *. repeat split; auto; [|lia].
      exists os', is'. repeat split; auto; [intros x Hx; auto|]. intros x Hx. destruct (I4 x Hx) as [Y|Y]; auto.
    - destruct X as (O1 & x & Hx & O2). exists x. split; [auto|split; auto]. }
  specialize (D ST caps (TNested outer (src_row src o) 0) 0%nat _ [] I0).
  assert (TT : nested_todo n L R (ap_type A) (arest A) (src_row src) outer (src_row src o) = flat_map (fun o => todo_row n L R (ap_type A) (arest A) o (src_row src o)) outer).
  { rewrite EO. cbn [nested_todo flat_map]. destruct (src_row src o); reflexivity. }
  rewrite TT in *.
  destruct (adrain A src caps (TNested outer (src_row src o) 0) []) as [out| |].
  - destruct D as (d & xs & rest & -> & <- & P & E & G). cbn [app]. split; [|exact G].
    exists (shown rest). rewrite <- shown_app. split.
    + rewrite <- (todo_results (src_row src)) by (intros; now apply fetched). unfold shown, outer_columns. destruct (ap_type A); auto using Permutation_map.
    + destruct E as [->|E]; [left; unfold shown; destruct (ap_type A); reflexivity|right; exact E].
  - exact D.
  - exact D.
Qed.

(* ---- hash maps ---- *)

Lemma hash_on o i : hashes A = true -> In o outer -> In i inner -> in_pass in_eq ps outer i = true ->
  beqb (outer_key ps o) (inner_key ps i) && rsat o i = on (glue n L R o i).
Proof.
  intros HA Ho Hi P. destruct (Hash HA) as (_ & InC & Nu & Ty). unfold sat, arest.
  apply (on_match n L R cs Apart Small outer inner in_eq Ty Nu on On); auto. now apply hashes_pairs.
Qed.
Lemma pass_incl part i : incl part outer -> in_pass in_eq ps part i = true -> in_pass in_eq ps outer i = true.
Proof.
  intros I0. unfold in_pass. destruct ps; [reflexivity|]. rewrite !existsb_exists. intros (o & Ho & E). exists o. auto.
Qed.
Lemma pass_on part o i : hashes A = true -> In o part -> on (glue n L R o i) = true -> in_pass in_eq ps part i = true.
Proof.
  intros HA Ho E. destruct (Hash HA) as (_ & InC & _). apply (on_in_pass n L R cs Apart Small part in_eq InC on On o i Ho E).
Qed.
Lemma beqb_sym a b : beqb a b = beqb b a.
Proof. apply Bool.eq_iff_eq_true. rewrite !beqb_eq. split; auto. Qed.
(* what is found in the inner rows sent for [part] *)
Lemma found part got o : hashes A = true -> incl part outer -> In o part -> Permutation got (filter (in_pass in_eq ps part) inner) ->
  Permutation (filter (fun i => beqb (outer_key ps o) (inner_key ps i) && rsat o i) got) (partners n L R on o (sub o)).
Proof.
  intros HA I0 Ho P. destruct (Hash HA) as (SU & _). rewrite (SU o (I0 o Ho)). rewrite (perm_filter _ _ _ P), filter_filter. unfold partners.
  erewrite filter_ext_in; [reflexivity|]. intros i Hi. cbn. destruct (in_pass in_eq ps part i) eqn:E; cbn [andb].
  - apply hash_on; auto. eapply pass_incl; eauto.
  - symmetry. apply not_true_is_false. intros C. rewrite (pass_on part o i HA Ho C) in E. discriminate.
Qed.

Lemma inner_run caps : hashes A = true -> ap_type A <> ASemi -> (ap_type A = ALeft -> only_keys L R cs) -> outer <> [] ->
  match arun A src outer caps with
  | Unfinished => ~ enough caps (length (flat_map result outer))
  | Error => False
  | Rows out => good out
  end.
Proof.
  intros HA NS LK NE.
  assert (OP : aopen A src outer = Some (TInner (concat (src_batches src)) outer 0 0)).
  { unfold aopen. destruct outer as [|o0 q0]; [contradiction|]. rewrite HA. destruct (ap_type A); [contradiction|reflexivity..]. }
  unfold arun. rewrite OP. clear OP.
  set (seek := fun o => bucket (inner_key ps) (concat (src_batches src)) (outer_key ps o)).
  assert (LA : ap_type A = ALeft -> forall o i, In i (seek o) -> rsat o i = true).
  { intros J o i _. unfold sat, arest. rewrite (rest_empty L R cs Apart (LK J)). reflexivity. }
  assert (TD : Permutation (shown (flat_map (fun o => todo_row n L R (ap_type A) (arest A) o (seek o)) outer)) (flat_map result outer)).
  { apply todo_results. intros o Ho. unfold seek, bucket. rewrite filter_filter.
    rewrite <- (found outer (concat (src_batches src)) o HA (incl_refl _) Ho (sup_batches _ _ _ _ _ _ Sup)).
    erewrite filter_ext; [reflexivity|]. intros i. cbn. now rewrite beqb_sym. }
  set (Inv := fun (s : astate) (cnt : nat) (l : list row) => exists os idx, s = TInner (concat (src_batches src)) os idx cnt /\
     l = inner_todo n L R (ap_type A) (arest A) seek os idx).
  pose proof (drain_gen A src eq Inv (fun _ l => length l) False True) as D.
  specialize (D ltac:(intros; congruence)).
  assert (ST : forall c s cnt l, Inv s cnt l ->
    match aget_next A src c s with
    | Fail => False
    | Batch b true _ => exists xs rest, b = xs /\ Permutation (xs ++ rest) l /\ (rest = [] \/ stopped (ap_limit A) (cnt + length b)) /\ (ap_limit A = None -> True)
    | Batch b false s' => exists xs l', b = xs /\ Permutation (xs ++ l') l /\ Inv s' (cnt + length b) l' /\ ((1 <= c)%nat -> (length l' < length l)%nat)
    end).
  { intros c s cnt l (os & idx & -> & ->). cbn [aget_next]. fold seek.
    pose proof (inner_map_spec n L R (ap_type A) (arest A) (ap_limit A) seek NS LA c os idx [] cnt) as X.
    destruct (inner_map_loop n L R (ap_type A) (arest A) (ap_limit A) c seek os idx [] cnt) as [b [|] [[os' idx'] cnt']|]; [| |exact X].
    - destruct X as (d & rest & -> & E & E2). cbn [app]. exists d, rest. rewrite E. repeat split; auto.
    - destruct X as (d & -> & -> & E & E2). cbn [app] in *. exists d, (inner_todo n L R (ap_type A) (arest A) seek os' idx').
      rewrite E2. rewrite app_length. repeat split; auto; [|lia]. exists os', idx'. auto. }
  specialize (D ST caps (TInner (concat (src_batches src)) outer 0 0) 0%nat (inner_todo n L R (ap_type A) (arest A) seek outer 0) []).
  specialize (D ltac:(exists outer, 0%nat; auto)). rewrite inner_todo_0 in D.
  destruct (adrain A src caps (TInner (concat (src_batches src)) outer 0 0) []) as [out| |]; [| |].
  - destruct D as (d & xs & rest & -> & <- & P & E & _). cbn [app]. exists (shown rest). rewrite <- shown_app. split.
    + rewrite <- TD. unfold shown, outer_columns. destruct (ap_type A); auto using Permutation_map.
    + destruct E as [->|E]; [left; unfold shown; destruct (ap_type A); reflexivity|right; exact E].
  - exact D.
  - intros X. apply D. rewrite <- (Permutation_length TD), shown_length in X. exact X.
Qed.

(* ---- semi joins over a hash map of outer rows ---- *)

Notation want := (wanted n L R (arest A) (outer_key ps) (inner_key ps)).
Notation made := (made_of n L R (arest A) (outer_key ps) (inner_key ps)).
Lemma want_semi part got : hashes A = true -> incl part outer -> Permutation got (filter (in_pass in_eq ps part) inner) ->
  want part got = semi n L R on sub part.
Proof.
  intros HA I0 P. unfold wanted, semi. apply filter_ext_in. intros o Ho.
  rewrite partners_has, filter_existsb. unfold partner.
  pose proof (found part got o HA I0 Ho P) as X.
  destruct (filter _ got), (partners n L R on o (sub o)); auto.
  - apply Permutation_nil in X. discriminate.
  - symmetry in X. apply Permutation_nil in X. discriminate.
Qed.
Lemma made_shown is d outs : Forall2 (made is) d outs -> outer_columns n L d = outer_columns n L outs.
Proof.
  induction 1 as [|r o d outs (i & _ & _ & ->) _ IH]; [reflexivity|]. cbn. rewrite result_row_glue, alone_glue by exact Apart. f_equal. exact IH.
Qed.
Lemma build_holds rows : holds_map (outer_key ps) (build_map (outer_key ps) rows) rows.
Proof. intros k. reflexivity. Qed.
Lemma semi_result l : ap_type A = ASemi -> flat_map result l = outer_columns n L (semi n L R on sub l).
Proof.
  intros J. unfold result. rewrite J. induction l as [|o q IH]; [reflexivity|]. cbn. rewrite IH. destruct (has_partner n L R on sub o); reflexivity.
Qed.
Definition showed (d xs : list row) : Prop := outer_columns n L d = outer_columns n L xs /\ length d = length xs.
Lemma showed_app a b x y : showed a x -> showed b y -> showed (a ++ b) (x ++ y).
Proof. unfold showed, outer_columns. rewrite !map_app, !app_length. intros [-> ->] [-> ->]. auto. Qed.
Lemma made_showed is d outs : Forall2 (made is) d outs -> showed d outs.
Proof. intros F. split; [eapply made_shown; eauto|]. induction F; cbn; auto. Qed.

Lemma outer_map_loop_spec cap : forall bs m cur rows b cnt, ap_type A = ASemi -> holds_map (outer_key ps) m rows ->
  match outer_map_loop n L R ASemi (arest A) (ap_limit A) cap (inner_key ps) m cur bs b cnt with
  | Fail => False
  | Batch b' true _ => exists d outs rest, b' = b ++ d /\ showed d outs /\ Permutation (outs ++ rest) (want rows (cur ++ concat bs)) /\
                       (rest = [] \/ stopped (ap_limit A) (cnt + length d))
  | Batch b' false (m', cur', bs', cnt') =>
      exists d outs now, b' = b ++ d /\ showed d outs /\ cnt' = (cnt + length d)%nat /\ (cap <= length b')%nat /\ holds_map (outer_key ps) m' now /\
                     Permutation (outs ++ want now (cur' ++ concat bs')) (want rows (cur ++ concat bs))
  end.
Proof.
  induction bs as [|x q IH]; intros m cur rows b cnt J HM; cbn [outer_map_loop concat];
    pose proof (rows_spec n L R (arest A) (ap_limit A) (outer_key ps) (inner_key ps) cap cur m rows b cnt HM) as X;
    destruct (outer_map_rows n L R ASemi (arest A) (ap_limit A) cap (inner_key ps) m cur b cnt) as [b' m' cnt'|b'|b' m' is' cnt'].
  - destruct X as (d & outs & now & -> & -> & H1 & H2 & H3). exists d, outs, []. repeat split; auto.
    + eapply made_shown; eauto.
    + eapply made_showed; eauto.
    + specialize (H3 []). rewrite <- H3. unfold wanted. cbn [existsb]. rewrite filter_none; auto.
  - destruct X as (d & outs & -> & ST & H2 & H3). destruct (H3 []) as (more & H4). exists d, outs, more. repeat split; auto.
    + eapply made_shown; eauto.
    + eapply made_showed; eauto.
  - destruct X as (d & outs & now & -> & -> & C & H1 & H2 & H3 & H4). exists d, outs, now. repeat split; auto.
    + eapply made_shown; eauto.
    + eapply made_showed; eauto.
  - destruct X as (d & outs & now & -> & -> & H1 & H2 & H3). specialize (IH m' x now (b ++ d) (cnt + length d)%nat J H1).
    destruct (outer_map_loop n L R ASemi (arest A) (ap_limit A) cap (inner_key ps) m' x q (b ++ d) (cnt + length d)) as [b2 [|] [[[m2 cur2] bs2] cnt2]|]; [| |exact IH].
    + destruct IH as (d2 & outs2 & rest & -> & S2 & P2 & E2). exists (d ++ d2), (outs ++ outs2), rest. rewrite <- !app_assoc, app_length, Nat.add_assoc. repeat split; auto.
      * apply (showed_app d d2 outs outs2); auto. eapply made_showed; eauto.
      * apply (showed_app d d2 outs outs2); auto. eapply made_showed; eauto.
      * rewrite P2. apply H3.
    + destruct IH as (d2 & outs2 & now2 & -> & S2 & -> & C & H5 & P2). exists (d ++ d2), (outs ++ outs2), now2. rewrite <- !app_assoc in *. rewrite app_length, Nat.add_assoc. repeat split; auto.
      * apply (showed_app d d2 outs outs2); auto. eapply made_showed; eauto.
      * apply (showed_app d d2 outs outs2); auto. eapply made_showed; eauto.
      * rewrite P2. apply H3.
  - destruct X as (d & outs & -> & ST & H2 & H3). destruct (H3 (x ++ concat q)) as (more & H4). exists d, outs, more. repeat split; auto.
    + eapply made_shown; eauto.
    + eapply made_showed; eauto.
  - destruct X as (d & outs & now & -> & -> & C & H1 & H2 & H3 & H4). exists d, outs, now. repeat split; auto.
    + eapply made_shown; eauto.
    + eapply made_showed; eauto.
Qed.

Lemma good_semi d xs rest l : ap_type A = ASemi -> Permutation l (semi n L R on sub outer) -> showed d xs -> Permutation (xs ++ rest) l ->
  (rest = [] \/ stopped (ap_limit A) (0 + length d)) -> good d.
Proof.
  intros J PL [S1 S2] P E. exists (outer_columns n L rest). split.
  - rewrite semi_result by exact J. unfold shown. rewrite J, S1. unfold outer_columns. rewrite <- map_app. apply Permutation_map. now rewrite P.
  - destruct E as [->|E]; [now left|now right].
Qed.

Lemma outer_run caps : hashes A = true -> ap_type A = ASemi -> ap_parent A = None -> outer <> [] ->
  match arun A src outer caps with
  | Unfinished => ~ enough caps (length outer)
  | Error => False
  | Rows out => good out
  end.
Proof.
  intros HA J PA NE. unfold arun, aopen. destruct outer as [|o0 q0] eqn:EO; [contradiction|]. rewrite HA, J, PA. rewrite <- EO in *.
  set (Inv := fun (s : astate) (cnt : nat) (l : list row) => exists m cur bs rows, s = TOuter m cur bs cnt /\ holds_map (outer_key ps) m rows /\
     l = want rows (cur ++ concat bs)).
  pose proof (drain_gen A src showed Inv (fun _ l => length l) False True) as D. specialize (D showed_app).
  assert (ST : forall c s cnt l, Inv s cnt l ->
    match aget_next A src c s with
    | Fail => False
    | Batch b true _ => exists xs rest, showed b xs /\ Permutation (xs ++ rest) l /\ (rest = [] \/ stopped (ap_limit A) (cnt + length b)) /\ (ap_limit A = None -> True)
    | Batch b false s' => exists xs l', showed b xs /\ Permutation (xs ++ l') l /\ Inv s' (cnt + length b) l' /\ ((1 <= c)%nat -> (length l' < length l)%nat)
    end).
  { intros c s cnt l (m & cur & bs & rows & -> & HM & ->). cbn [aget_next]. rewrite J.
    pose proof (outer_map_loop_spec c bs m cur rows [] cnt J HM) as X.
    destruct (outer_map_loop n L R ASemi (arest A) (ap_limit A) c (inner_key ps) m cur bs [] cnt) as [b [|] [[[m' cur'] bs'] cnt']|]; [| |exact X].
    - destruct X as (d & outs & rest & -> & S1 & P & E). cbn [app]. exists outs, rest. auto.
    - destruct X as (d & outs & now & -> & S1 & -> & C & H1 & P). cbn [app] in *. exists outs, (want now (cur' ++ concat bs')). split; [exact S1|]. split; [exact P|]. split.
      + exists m', cur', bs', now. auto.
      + intros C1. rewrite <- (Permutation_length P), app_length. destruct S1 as [_ S1]. lia. }
  specialize (D ST caps (TOuter (build_map (outer_key ps) outer) [] (src_batches src) 0) 0%nat (want outer (concat (src_batches src))) []).
  specialize (D ltac:(exists (build_map (outer_key ps) outer), [], (src_batches src), outer; auto using build_holds)).
  rewrite (want_semi outer (concat (src_batches src)) HA (incl_refl _) (sup_batches _ _ _ _ _ _ Sup)) in D.
  destruct (adrain A src caps (TOuter (build_map (outer_key ps) outer) [] (src_batches src) 0) []) as [out| |].
  - destruct D as (d & xs & rest & -> & S1 & P & E & _). cbn [app]. eapply good_semi; eauto.
  - exact D.
  - intros [X Y]. apply D. split; [|exact Y]. eapply Nat.le_lt_trans; [|exact X]. unfold semi. clear. induction outer as [|o q IH]; cbn; [lia|]. destruct (has_partner n L R on sub o); cbn; lia.
Qed.

Lemma semi_app a b : semi n L R on sub (a ++ b) = semi n L R on sub a ++ semi n L R on sub b.
Proof. apply filter_app. Qed.
Lemma semi_length l : (length (semi n L R on sub l) <= length l)%nat.
Proof. unfold semi. induction l as [|o q IH]; cbn; [lia|]. destruct (has_partner n L R on sub o); cbn; lia. Qed.
Lemma want_nil rows : want rows [] = [].
Proof. unfold wanted. apply filter_none. auto. Qed.
Definition flag (is : list row) : nat := match is with [] => 0 | _ => 1 end.
Definition loop_meas (s : astate) (l : list row) : nat := match s with TLoop _ os _ is _ _ => (length l + length os + flag is)%nat | _ => O end.

Lemma loop_run k caps : hashes A = true -> ap_type A = ASemi -> ap_parent A = Some k -> (1 <= k)%nat -> outer <> [] ->
  match arun A src outer caps with
  | Unfinished => ~ enough caps (2 * length outer)
  | Error => False
  | Rows out => good out
  end.
Proof.
  intros HA J PA K1 NE.
  assert (LN : forall j, (1 <= loop_num k j)%nat).
  { intros j. unfold loop_num. pose proof (Nat.pow_nonzero 2 j ltac:(lia)). nia. }
  set (chunk0 := firstn (loop_num k 0) outer).
  assert (OP : aopen A src outer = Some (TLoop k (skipn (loop_num k 0) outer) (build_map (outer_key ps) chunk0) (src_rows src chunk0) 1 0)).
  { unfold aopen, chunk0. destruct outer as [|o0 q0]; [contradiction|]. rewrite HA, J, PA. reflexivity. }
  unfold arun. rewrite OP. clear OP.
  set (Inv := fun (s : astate) (cnt : nat) (l : list row) => exists os m is loops rows, s = TLoop k os m is loops cnt /\ holds_map (outer_key ps) m rows /\
     incl os outer /\ Permutation l (want rows is ++ semi n L R on sub os)).
  pose proof (drain_gen A src showed Inv loop_meas False True) as D. specialize (D showed_app).
  (* one pass over the inner rows *)
  assert (PASS : forall (c : nat) (os0 is0 os : list row) (m : hashmap) (is : list row) (loops cnt : nat) (l rows : list row), holds_map (outer_key ps) m rows -> incl os outer ->
    Permutation l (want rows is ++ semi n L R on sub os) -> (length os + flag is <= length os0 + flag is0)%nat -> is <> [] \/ (length os < length os0)%nat ->
    match (match outer_map_rows n L R ASemi (arest A) (ap_limit A) c (inner_key ps) m is [] cnt with
           | SDone b' m' cnt' => Batch b' false (TLoop k os m' [] loops cnt')
           | SLimit b' => Batch b' true (TLoop k os m is loops cnt)
           | SFull b' m' rest cnt' => Batch b' false (TLoop k os m' rest loops cnt')
           end) with
    | Fail => False
    | Batch b true _ => exists xs rest, showed b xs /\ Permutation (xs ++ rest) l /\ (rest = [] \/ stopped (ap_limit A) (cnt + length b)) /\ (ap_limit A = None -> True)
    | Batch b false s' => exists xs l', showed b xs /\ Permutation (xs ++ l') l /\ Inv s' (cnt + length b)%nat l' /\ ((1 <= c)%nat -> (loop_meas s' l' < length l + length os0 + flag is0)%nat)
    end).
  { intros c os0 is0 os m is loops cnt l rows HM I0 PL LE ADV.
    pose proof (rows_spec n L R (arest A) (ap_limit A) (outer_key ps) (inner_key ps) c is m rows [] cnt HM) as X.
    destruct (outer_map_rows n L R ASemi (arest A) (ap_limit A) c (inner_key ps) m is [] cnt) as [b' m' cnt'|b'|b' m' is' cnt'].
    - destruct X as (d & outs & now & -> & -> & H1 & H2 & H3). cbn [app]. specialize (H3 []). rewrite app_nil_r, want_nil, app_nil_r in H3.
      exists outs, (semi n L R on sub os). split; [eapply made_showed; eauto|]. split; [now rewrite PL, H3|]. split.
      + exists os, m', [], loops, now. rewrite want_nil. repeat split; auto.
      + intros _. cbn [loop_meas flag]. rewrite (Permutation_length PL), app_length. destruct ADV as [ADV|ADV]; [|lia]. destruct is; [contradiction|]. cbn [flag] in *. lia.
    - destruct X as (d & outs & -> & ST & H2 & H3). cbn [app]. destruct (H3 []) as (more & H4). rewrite app_nil_r in H4.
      exists outs, (more ++ semi n L R on sub os). split; [eapply made_showed; eauto|]. split; [rewrite PL, <- H4, app_assoc; reflexivity|]. auto.
    - destruct X as (d & outs & now & -> & -> & C & H1 & H2 & H3 & H4). cbn [app] in *. specialize (H4 []). rewrite !app_nil_r in H4.
      exists outs, (want now is' ++ semi n L R on sub os). pose proof (made_showed _ _ _ H2) as [SH1 SH2]. split; [split; auto|].
      split; [rewrite PL, <- H4, app_assoc; reflexivity|]. split.
      + exists os, m', is', loops, now. repeat split; auto.
      + intros C1. cbn [loop_meas]. rewrite (Permutation_length PL), !app_length, <- (Permutation_length H4), app_length.
        destruct ADV as [ADV|ADV]; [destruct is; [contradiction|]|]; destruct is'; cbn [flag] in *; lia. }
  assert (CH : forall (os : list row) (j : nat), incl os outer -> os <> [] ->
     want (firstn (loop_num k j) os) (src_rows src (firstn (loop_num k j) os)) ++ semi n L R on sub (skipn (loop_num k j) os) = semi n L R on sub os /\
     (length (skipn (loop_num k j) os) < length os)%nat /\ incl (skipn (loop_num k j) os) outer).
  { intros os j I0 N0. assert (I1 : incl (firstn (loop_num k j) os) outer).
    { intros x Hx. apply I0. rewrite <- (firstn_skipn (loop_num k j) os). apply in_or_app. now left. }
    split; [|split].
    - rewrite (want_semi (firstn (loop_num k j) os) (src_rows src (firstn (loop_num k j) os)) HA I1) by (apply (sup_rows _ _ _ _ _ _ Sup); exact I1).
      rewrite <- semi_app, firstn_skipn. reflexivity.
    - rewrite skipn_length. specialize (LN j). destruct os; [contradiction|]. cbn [length]. lia.
    - intros x Hx. apply I0. rewrite <- (firstn_skipn (loop_num k j) os). apply in_or_app. now right. }
  assert (ST : forall c s cnt l, Inv s cnt l ->
    match aget_next A src c s with
    | Fail => False
    | Batch b true _ => exists xs rest, showed b xs /\ Permutation (xs ++ rest) l /\ (rest = [] \/ stopped (ap_limit A) (cnt + length b)) /\ (ap_limit A = None -> True)
    | Batch b false s' => exists xs l', showed b xs /\ Permutation (xs ++ l') l /\ Inv s' (cnt + length b)%nat l' /\ ((1 <= c)%nat -> (loop_meas s' l' < loop_meas s l)%nat)
    end).
  { intros c s cnt l (os & m & is & loops & rows & -> & HM & I0 & PL). cbn [aget_next]. rewrite J. unfold outer_loop. cbn [loop_meas].
    destruct is as [|i q].
    - destruct os as [|o1 q1].
      + exists [], []. rewrite want_nil in PL. cbn in PL. rewrite PL. repeat split; auto.
      + destruct (CH (o1 :: q1) loops I0 ltac:(discriminate)) as (C1 & C2 & C3).
        set (os' := skipn (loop_num k loops) (o1 :: q1)) in *. set (ch := firstn (loop_num k loops) (o1 :: q1)) in *.
        assert (PL' : Permutation l (want ch (src_rows src ch) ++ semi n L R on sub os')).
        { rewrite C1, PL, want_nil. reflexivity. }
        pose proof (PASS c (o1 :: q1) [] os' (build_map (outer_key ps) ch) (src_rows src ch) (S loops) cnt l ch (build_holds ch) C3 PL') as X.
        assert (FL : (flag (src_rows src ch) <= 1)%nat) by (destruct (src_rows src ch); cbn; lia).
        specialize (X ltac:(cbn [flag]; lia) (or_intror C2)).
        destruct (outer_map_rows n L R ASemi (arest A) (ap_limit A) c (inner_key ps) (build_map (outer_key ps) ch) (src_rows src ch) [] cnt); exact X.
    - assert (NQ : i :: q <> []) by discriminate.
      pose proof (PASS c os (i :: q) os m (i :: q) loops cnt l rows HM I0 PL (Nat.le_refl _) (or_introl NQ)) as X.
      destruct (outer_map_rows n L R ASemi (arest A) (ap_limit A) c (inner_key ps) m (i :: q) [] cnt); exact X. }
  destruct (CH outer 0%nat (incl_refl _) NE) as (C1 & C2 & C3). fold chunk0 in C1.
  specialize (D ST caps (TLoop k (skipn (loop_num k 0) outer) (build_map (outer_key ps) chunk0) (src_rows src chunk0) 1 0) 0%nat (semi n L R on sub outer) []).
  assert (I0 : Inv (TLoop k (skipn (loop_num k 0) outer) (build_map (outer_key ps) chunk0) (src_rows src chunk0) 1 0) 0%nat (semi n L R on sub outer)).
  { exists (skipn (loop_num k 0) outer), (build_map (outer_key ps) chunk0), (src_rows src chunk0), 1%nat, chunk0.
    split; [reflexivity|]. split; [apply build_holds|]. split; [exact C3|]. now rewrite C1. }
  specialize (D I0).
  destruct (adrain A src caps _ []) as [out| |].
  - destruct D as (d & xs & rest & -> & S1 & P & E & _). cbn [app]. eapply good_semi; eauto.
  - exact D.
  - intros [X Y]. apply D. split; [|exact Y]. eapply Nat.le_lt_trans; [|exact X]. cbn [loop_meas]. pose proof (semi_length outer).
    assert (FL : (flag (src_rows src chunk0) <= 1)%nat) by (destruct (src_rows src chunk0); cbn; lia). lia.
Qed.
End Theorems.
