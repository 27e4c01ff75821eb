(* Pushing conditions into derived tables keeps the answer, outside the refuted cases. *)
From Coq Require Import List ZArith Bool Arith Lia.
From Verif Require Import Derived.Spec Derived.Model Derived.Groups.
Import ListNotations.

Section ExprInd.
  Variable P : expr -> Prop.
  Hypothesis HR : forall t s, P (ERef t s).
  Hypothesis HL : forall v, P (ELit v).
  Hypothesis HF : forall f args, Forall P args -> P (EFn f args).
  Hypothesis HA : forall i, P (EAgg i).
  Hypothesis HW : forall i, P (EWin i).
  Fixpoint expr_ind' (e : expr) : P e :=
    match e with
    | ERef t s => HR t s
    | ELit v => HL v
    | EFn f args => HF f args ((fix go l : Forall P l :=
        match l with [] => Forall_nil _ | x :: r => Forall_cons _ (expr_ind' x) (go r) end) args)
    | EAgg i => HA i
    | EWin i => HW i
    end.
End ExprInd.

Section PlanInd.
  Variable P : plan -> Prop.
  Hypothesis HT : forall rows filt ag hv ws ord lim pr, P (PSel (PTable rows) filt ag hv ws ord lim pr).
  Hypothesis HS : forall t p filt ag hv ws ord lim pr, P p -> P (PSel (PSub t p) filt ag hv ws ord lim pr).
  Hypothesis HU : forall bs u n dist ord lim, Forall (fun b => P (fst b)) bs -> P (PUni bs u n dist ord lim).
  Fixpoint plan_ind' (p : plan) : P p :=
    match p with
    | PSel src filt ag hv ws ord lim pr =>
        match src with
        | PTable rows => HT rows filt ag hv ws ord lim pr
        | PSub t p' => HS t p' filt ag hv ws ord lim pr (plan_ind' p')
        end
    | PUni bs u n dist ord lim =>
        HU bs u n dist ord lim ((fix go l : Forall (fun b => P (fst b)) l :=
          match l with
          | [] => Forall_nil _
          | b :: r => Forall_cons _ (match b return P (fst b) with (p', _) => plan_ind' p' end) (go r)
          end) bs)
    end.
End PlanInd.

(* ---------- expressions ---------- *)
Lemma ref_eqb_true a b : ref_eqb a b = true <-> a = b.
Proof.
  destruct a, b. unfold ref_eqb. cbn. rewrite andb_true_iff, !Nat.eqb_eq. split; intuition congruence.
Qed.
Lemma ref_in_true a l : ref_in a l = true <-> In a l.
Proof.
  unfold ref_in. rewrite existsb_exists. split.
  - intros (x & Hx & E). apply ref_eqb_true in E. now subst.
  - intros E. exists a. split; auto. now apply ref_eqb_true.
Qed.

Lemma eval_cells e r r' : has_agg_win e = false ->
  (forall t s, In (t, s) (refs e) -> cells r t s = cells r' t s) -> eval r e = eval r' e.
Proof.
  induction e as [t s|v|f args IH|i|i] using expr_ind'; cbn; intros A E; auto; try discriminate.
  f_equal. apply map_ext_in. intros a Ha. rewrite Forall_forall in IH. apply IH; auto.
  - destruct (has_agg_win a) eqn:X; auto.
    assert (Y : existsb has_agg_win args = true) by (apply existsb_exists; eauto). congruence.
  - intros t s Hts. apply E. apply in_concat. exists (refs a). split; auto. now apply in_map.
Qed.

Definition nonbare (e : expr) : Prop := match e with ERef _ _ => False | _ => True end.

Section Replace.
  Variables (t : nat) (pr : list expr).

  Definition fits (e : expr) : Prop :=
    has_agg_win e = false /\
    forall r, In r (refs e) -> fst r = t /\
      exists x, nth_error pr (snd r) = Some x /\ has_agg_win x = false.

  Lemma fits_arg f args a : fits (EFn f args) -> In a args -> fits a.
  Proof.
    intros [A R] Ha. split.
    - destruct (has_agg_win a) eqn:X; auto. cbn in A.
      assert (Y : existsb has_agg_win args = true) by (apply existsb_exists; eauto). congruence.
    - intros r Hr. apply R. cbn. apply in_concat. exists (refs a). split; auto. now apply in_map.
  Qed.

  Lemma replace_eval e r : fits e ->
    eval r (replace t pr e) = eval (as_row t (project pr r)) e.
  Proof.
    induction e as [t' s|v|f args IH|i|i] using expr_ind'; intros FI; cbn [replace eval]; auto.
    - destruct FI as [_ R]. destruct (R (t', s)) as (E & x & X & _); [cbn; auto|]. cbn in E, X. subst t'.
      rewrite Nat.eqb_refl. unfold as_row. cbn. rewrite Nat.eqb_refl. unfold project.
      rewrite (nth_indep _ _ (eval r (ERef t s))) by (rewrite map_length; apply nth_error_Some; congruence).
      now rewrite map_nth.
    - f_equal. rewrite map_map. apply map_ext_in. intros a Ha. rewrite Forall_forall in IH.
      apply IH; auto. eapply fits_arg; eauto.
    - destruct FI as [A _]. discriminate.
    - destruct FI as [A _]. discriminate.
  Qed.

  Lemma replace_noagg e : fits e -> has_agg_win (replace t pr e) = false.
  Proof.
    induction e as [t' s|v|f args IH|i|i] using expr_ind'; intros FI; cbn [replace]; auto.
    - destruct FI as [_ R]. destruct (R (t', s)) as (E & x & X & Y); [cbn; auto|]. cbn in E, X. subst t'.
      rewrite Nat.eqb_refl. now rewrite (nth_error_nth _ _ _ X).
    - cbn. destruct (existsb has_agg_win (map (replace t pr) args)) eqn:X; auto.
      apply existsb_exists in X. destruct X as (y & Hy & E). apply in_map_iff in Hy. destruct Hy as (a & <- & Ha).
      rewrite Forall_forall in IH. rewrite IH in E; auto. eapply fits_arg; eauto.
    - destruct FI as [A _]. discriminate.
    - destruct FI as [A _]. discriminate.
  Qed.

  Lemma replace_refs e r : fits e -> In r (refs (replace t pr e)) ->
    exists s x, In (t, s) (refs e) /\ nth_error pr s = Some x /\ has_agg_win x = false /\ In r (refs x).
  Proof.
    induction e as [t' s|v|f args IH|i|i] using expr_ind'; intros FI; cbn [replace]; intros Hr; try (cbn in Hr; tauto).
    - destruct FI as [_ R]. destruct (R (t', s)) as (E & x & X & Y); [cbn; auto|]. cbn in E, X. subst t'.
      rewrite Nat.eqb_refl in Hr. rewrite (nth_error_nth _ _ _ X) in Hr. exists s, x. cbn. auto.
    - cbn in Hr. rewrite map_map in Hr. apply in_concat in Hr. destruct Hr as (l & Hl & Hr).
      apply in_map_iff in Hl. destruct Hl as (a & <- & Ha). rewrite Forall_forall in IH.
      destruct (IH a Ha (fits_arg _ _ _ FI Ha) Hr) as (s & x & X1 & X2).
      exists s, x. split; auto. cbn. apply in_concat. exists (refs a). split; auto. now apply in_map.
  Qed.

  Lemma replace_inner e r : fits e -> nonbare e -> In r (refs (replace t pr e)) -> In r (inner_refs t pr e).
  Proof.
    induction e as [t' s|v|f args IH|i|i] using expr_ind'; intros FI NB; cbn [replace]; intros Hr;
      try (cbn in Hr; tauto).
    cbn in Hr. rewrite map_map in Hr. apply in_concat in Hr. destruct Hr as (l & Hl & Hr).
    apply in_map_iff in Hl. destruct Hl as (a & <- & Ha). rewrite Forall_forall in IH.
    specialize (IH a Ha (fits_arg _ _ _ FI Ha)).
    cbn [inner_refs]. apply in_concat.
    eexists. split; [apply in_map_iff; exists a; split; [reflexivity|exact Ha]|].
    destruct a as [t' s|v|f' args'|i|i]; try (apply IH; cbn; auto; fail).
    - pose proof (fits_arg _ _ _ FI Ha) as FA. destruct FA as [_ R].
      destruct (R (t', s)) as (E & x & X & Y); [cbn; auto|]. cbn in E, X. subst t'.
      cbn in Hr. rewrite Nat.eqb_refl in Hr |- *. rewrite (nth_error_nth _ _ _ X) in Hr. rewrite (nth_error_nth _ _ _ X). exact Hr.
  Qed.

  Lemma replace_nonbare e : nonbare e -> nonbare (replace t pr e).
  Proof. destruct e; cbn; tauto. Qed.
End Replace.

Lemma pushable_fits t p e : pushable t p e = true -> fits t (projections p) e.
Proof.
  unfold pushable. rewrite !andb_true_iff. intros ((((A & B) & C) & D) & _).
  split; [now apply negb_true_iff|]. intros r Hr. rewrite forallb_forall in B, D.
  specialize (B r Hr). specialize (D r Hr). apply Nat.eqb_eq in B. split; auto.
  destruct (nth_error (projections p) (snd r)) as [x|]; [|discriminate]. exists x. split; auto. now apply negb_true_iff.
Qed.

(* ---------- the nodes let conditions through ---------- *)
Lemma key_cells gs r r' t s : map (eval r) gs = map (eval r') gs -> In (t, s) (plain_refs gs) ->
  cells r t s = cells r' t s.
Proof.
  induction gs as [|g gs IH]; [cbn; tauto|]. intros E Hin. cbn in E. injection E as E1 E2.
  unfold plain_refs in Hin. cbn [map concat] in Hin. apply in_app_iff in Hin. destruct Hin as [Hin|Hin].
  - destruct g; cbn in Hin; try tauto. destruct Hin as [Hin|[]]. injection Hin as <- <-. exact E1.
  - apply IH; auto.
Qed.

Lemma common_all ws r : In r (common_parts ws) -> forall w, In w ws -> In r (plain_refs (w_part w)).
Proof.
  destruct ws as [|w ws]; cbn; [tauto|].
  assert (G : forall l acc, In r (fold_left (fun acc w' => filter (fun a => ref_in a acc) (plain_refs (w_part w'))) l acc) ->
            In r acc /\ forall w', In w' l -> In r (plain_refs (w_part w'))).
  { induction l as [|x l IH]; cbn; intros acc E; [tauto|]. apply IH in E. destruct E as [E1 E2].
    apply filter_In in E1. destruct E1 as [E0 E1]. apply ref_in_true in E1. split; auto.
    intros w' [<-|Hw]; auto. }
  intros E w'. apply G in E. intros [<-|Hw]; [tauto|]. now apply E.
Qed.

Section Through.
  Variable q : row -> bool.
  Hypothesis q_cells : forall r r', cells r = cells r' -> q r = q r'.

  Lemma agg_through a rows : a_group a <> [] ->
    (forall r r', map (eval r) (a_group a) = map (eval r') (a_group a) -> q r = q r') ->
    filter q (run_agg (Some a) rows) = run_agg (Some a) (filter q rows).
  Proof.
    intros NE Q. unfold run_agg. rewrite !hash_groups_ok.
    destruct (a_group a) as [|g0 gs] eqn:EG; [congruence|]. rewrite <- EG in *.
    rewrite filter_map. f_equal. symmetry. apply groups_filter; auto.
    intros g r Hg Hr. apply in_groups in Hg. destruct Hg as (k & _ & ->).
    apply filter_In in Hr. destruct Hr as [Hr1 Hr2]. apply key_eqb_true in Hr2.
    destruct (filter (fun r0 => key_eqb (map (eval r0) (a_group a)) k) rows) as [|h l] eqn:EF.
    - assert (In r []) by (rewrite <- EF; apply filter_In; split; auto; now apply key_eqb_true). destruct H.
    - assert (Hh : In h (h :: l)) by (cbn; auto). rewrite <- EF in Hh. apply filter_In in Hh.
      destruct Hh as [_ Hh]. apply key_eqb_true in Hh.
      rewrite (q_cells (group_row (a_fns a) (h :: l)) h) by reflexivity. apply Q. congruence.
  Qed.

  Lemma window_through w rows :
    (forall r r', map (eval r) (w_part w) = map (eval r') (w_part w) -> q r = q r') ->
    filter q (run_window rows w) = run_window (filter q rows) w.
  Proof.
    intros Q. unfold run_window. rewrite !hash_groups_ok.
    set (key := fun r => map (eval r) (w_part w)) in *.
    rewrite (groups_filter key q (fun g => q (hd null_row g))); auto.
    2:{ intros g r Hg Hr. apply in_groups in Hg. destruct Hg as (k & _ & ->).
        apply filter_In in Hr. destruct Hr as [Hr1 Hr2]. apply key_eqb_true in Hr2.
        destruct (filter (fun r0 => key_eqb (key r0) k) rows) as [|h l] eqn:EF.
        - assert (X : In r []) by (rewrite <- EF; apply filter_In; split; auto; now apply key_eqb_true). destruct X.
        - assert (Hh : In h (h :: l)) by (cbn; auto). rewrite <- EF in Hh. apply filter_In in Hh.
          destruct Hh as [_ Hh]. apply key_eqb_true in Hh. cbn. apply Q. unfold key in *. congruence. }
    set (out := fun p : list row => map (fun iv => add_win (nth (fst iv) p null_row) (snd iv))
                            (filter (fun iv => fst iv <? length p) (w_fn w p))).
    assert (AL2 : forall g, In g (groups key rows) -> forall y, In y (out g) -> q y = q (hd null_row g)).
    { intros g Hg y Hy.
      assert (AL : forall r, In r g -> q r = q (hd null_row g)).
      { intros r Hr. apply in_groups in Hg. destruct Hg as (k & _ & ->).
        apply filter_In in Hr. destruct Hr as [Hr1 Hr2]. apply key_eqb_true in Hr2.
        destruct (filter (fun r0 => key_eqb (key r0) k) rows) as [|h l] eqn:EF.
        - assert (X : In r []) by (rewrite <- EF; apply filter_In; split; auto; now apply key_eqb_true). destruct X.
        - assert (Hh : In h (h :: l)) by (cbn; auto). rewrite <- EF in Hh. apply filter_In in Hh.
          destruct Hh as [_ Hh]. apply key_eqb_true in Hh. cbn. apply Q. unfold key in *. congruence. }
      unfold out in Hy. apply in_map_iff in Hy. destruct Hy as ((i & v) & <- & Hy). apply filter_In in Hy.
      destruct Hy as [_ Hy]. apply Nat.ltb_lt in Hy. cbn [fst snd] in *.
      rewrite (q_cells _ (nth i g null_row)) by reflexivity. apply AL. now apply nth_In. }
    clearbody out.
    rewrite filter_concat, map_map. revert AL2. generalize (groups key rows). intros gs AL2.
    induction gs as [|g gs IH]; cbn; auto.
    rewrite IH by (intros; apply AL2; cbn; auto).
    specialize (AL2 g (or_introl eq_refl)).
    destruct (q (hd null_row g)) eqn:E.
    - cbn. f_equal. apply filter_true. auto.
    - cbn. rewrite (filter_false q) by auto. reflexivity.
  Qed.

  Lemma windows_through ws rows :
    (forall w, In w ws -> forall r r', map (eval r) (w_part w) = map (eval r') (w_part w) -> q r = q r') ->
    filter q (fold_left run_window ws rows) = fold_left run_window ws (filter q rows).
  Proof.
    revert rows. induction ws as [|w ws IH]; cbn; intros rows Q; auto.
    rewrite IH by eauto. rewrite window_through by eauto. reflexivity.
  Qed.
End Through.

(* ---------- plans for which pushing is right ---------- *)
Definition ok_agg (ag : option aggnode) (pr : list expr) : Prop :=
  match ag with
  | None => True
  | Some a =>
      (a_group a = [] -> forall x, In x pr -> has_agg_win x = false -> refs x <> []) /\
      ((forall r, In r (plain_refs (a_seen a)) -> In r (plain_refs (a_group a))) \/
       (forall x, In x pr -> has_agg_win x = false -> forall r, In r (refs x) -> In r (plain_refs (a_group a))))
  end.
Definition ok_block (p : plan) : Prop :=
  match p with
  | PSel _ _ ag _ _ _ _ pr => ok_agg ag pr
  | PUni _ _ _ _ _ _ => True
  end.
Fixpoint ok (p : plan) : Prop :=
  match p with
  | PSel src filt _ _ _ _ _ _ =>
      Forall nonbare filt /\ match src with PTable _ => True | PSub _ p' => ok p' /\ ok_block p' end
  | PUni bs _ _ _ _ _ =>
      fold_right and True (map (fun b : plan * list expr => ok (fst b) /\ ok_block (fst b) /\ Forall nonbare (snd b)) bs)
  end.

(* The plan with the conditions added at the bottom. *)
Definition addw (p : plan) (es : list expr) : plan :=
  match p with
  | PSel src filt ag hv ws ord lim pr => PSel src (es ++ filt) ag hv ws ord lim pr
  | PUni bs u n dist ord lim => PUni (map (fun b : plan * list expr => (fst b, es ++ snd b)) bs) u n dist ord lim
  end.

Lemma addw_nil p : addw p [] = p.
Proof.
  destruct p; cbn; auto. f_equal. rewrite <- (map_id bs) at 2. apply map_ext. now intros [].
Qed.

Lemma satisfies_app r a b : satisfies r (a ++ b) = satisfies r a && satisfies r b.
Proof. apply forallb_app. Qed.

Lemma filter_app_sat (a b : list expr) rows :
  filter (fun r => satisfies r (a ++ b)) rows = filter (fun r => satisfies r a) (filter (fun r => satisfies r b) rows).
Proof. rewrite filter_filter. apply filter_ext. intros r. now rewrite satisfies_app, andb_comm. Qed.

Lemma pushed_block t p es :
  has_limit p = false -> ok_block p ->
  (forall e, In e es -> pushable t p e = true /\ nonbare e) ->
  filter (fun r => satisfies r es) (map (as_row t) (run p)) =
  map (as_row t) (run (addw p (map (replace t (projections p)) es))).
Proof.
  intros NL OK PU. destruct es as [|e0 es'] eqn:EES.
  { cbn [map]. rewrite addw_nil. apply filter_true. reflexivity. }
  rewrite <- EES in *. assert (E0 : In e0 es) by (rewrite EES; cbn; auto). clear EES.
  set (es2 := map (replace t (projections p)) es).
  assert (FI : forall e, In e es -> fits t (projections p) e) by (intros e He; apply pushable_fits; apply PU; auto).
  (* the pushed conditions look at columns inside only *)
  assert (QC : forall (S0 : list (nat * nat)), (forall e r, In e es -> In r (refs (replace t (projections p) e)) -> In r S0) ->
     forall r r', (forall t' s, In (t', s) S0 -> cells r t' s = cells r' t' s) -> satisfies r es2 = satisfies r' es2).
  { intros S0 HS r r' HC. unfold satisfies, es2. apply eq_true_iff_eq. rewrite !forallb_forall.
    assert (G : forall e, In e es -> eval r (replace t (projections p) e) = eval r' (replace t (projections p) e)).
    { intros e He. apply eval_cells; [apply replace_noagg; auto|]. intros t' s Hr. apply HC. eauto. }
    split; intros Hx x Hin; apply in_map_iff in Hin as Hin'; destruct Hin' as (e & <- & He);
      [rewrite <- G by auto|rewrite G by auto]; auto. }
  assert (QCELL : forall r r', cells r = cells r' -> satisfies r es2 = satisfies r' es2).
  { intros r r' E. apply (QC (concat (map refs es2))).
    - intros e x He Hx. apply in_concat. exists (refs (replace t (projections p) e)). split; auto.
      apply in_map. unfold es2. now apply in_map.
    - intros. now rewrite E. }
  assert (PR : forall r, satisfies (as_row t (project (projections p) r)) es = satisfies r es2).
  { intros r. unfold satisfies, es2. apply eq_true_iff_eq. rewrite !forallb_forall. split.
    - intros Hx x Hin. apply in_map_iff in Hin. destruct Hin as (e & <- & He). rewrite replace_eval; auto.
    - intros Hx e He. rewrite <- replace_eval; auto. apply Hx. now apply in_map. }
  destruct p as [src filt ag hv ws ord lim pr|bs u n dist ord lim]; cbn [has_limit] in NL;
    (destruct lim; [discriminate|]); cbn [run addw projections cut] in *.
  - rewrite map_map, filter_map. rewrite map_map. f_equal.
    rewrite (filter_ext _ (fun r => satisfies r es2)) by (intros; apply PR).
    rewrite filter_sort_rows. f_equal.
    assert (WK : forall w, In w ws -> forall r r', map (eval r) (w_part w) = map (eval r') (w_part w) ->
               satisfies r es2 = satisfies r' es2).
    { intros w Hw r r' EK. apply (QC (plain_refs (w_part w))).
      - intros e x He Hx. destruct (PU e He) as [PE NB].
        apply replace_inner in Hx; auto.
        unfold pushable in PE. rewrite !andb_true_iff in PE. destruct PE as (_ & _ & PE). cbn in PE.
        destruct ws as [|w0 ws0]; [destruct Hw|]. rewrite forallb_forall in PE. apply PE in Hx.
        apply ref_in_true in Hx. exact (common_all (w0 :: ws0) x Hx w Hw).
      - intros. eapply key_cells; eauto. }
    rewrite windows_through; auto. f_equal. rewrite filter_comm. f_equal.
    fold es2. rewrite filter_app_sat.
    destruct ag as [a|]; [|reflexivity].
    assert (SL : forall e x, In e es -> In x (refs (replace t pr e)) -> In x (plain_refs (a_group a))).
    { intros e x He Hx. destruct OK as [_ [OK|OK]].
      - destruct (PU e He) as [PE NB]. apply OK. pose proof (FI e He) as FE. apply replace_inner in Hx; auto.
        unfold pushable in PE. rewrite !andb_true_iff in PE. destruct PE as (_ & PE & _). cbn in PE.
        rewrite forallb_forall in PE. apply PE in Hx. now apply ref_in_true.
      - apply replace_refs in Hx; auto. destruct Hx as (s & y & X1 & X2 & X3 & X4). apply (OK y); auto.
        eapply nth_error_In; eauto. }
    rewrite agg_through; auto.
    + (* GROUP BY is not empty *)
      intros EG. destruct OK as [OK _]. specialize (OK EG).
      destruct (PU e0 E0) as [PE _]. unfold pushable in PE. rewrite !andb_true_iff in PE.
      destruct PE as ((((NE & _) & _) & _) & _).
      destruct (refs e0) as [|[t' s] rs] eqn:ER; [discriminate|].
      destruct (FI e0 E0) as [_ R]. rewrite ER in R. destruct (R (t', s)) as (ET & x & X & Y); [cbn; auto|].
      cbn in ET, X. subst t'. apply (OK x); auto; [eapply nth_error_In; eauto|].
      destruct (refs x) as [|y ys] eqn:EX; auto. exfalso.
      assert (In y (refs (replace t pr e0))).
      { clear - ER X EX. assert (Hin : In (t, s) (refs e0)) by (rewrite ER; cbn; auto). clear ER.
        induction e0 as [t' s'|v|f args IH|i|i] using expr_ind'; cbn in Hin |- *; try tauto.
        - destruct Hin as [Hin|[]]. injection Hin as -> ->. rewrite Nat.eqb_refl.
          rewrite (nth_error_nth _ _ _ X), EX. cbn; auto.
        - apply in_concat in Hin. destruct Hin as (l & Hl & Hin). apply in_map_iff in Hl.
          destruct Hl as (a & <- & Ha). rewrite map_map. apply in_concat.
          exists (refs (replace t pr a)). split; [now apply in_map with (f := fun a => refs (replace t pr a))|].
          rewrite Forall_forall in IH. auto. }
      apply SL in H; auto. rewrite EG in H. destruct H.
    + intros r r' EK. apply (QC (plain_refs (a_group a))); auto. intros. eapply key_cells; eauto.
  - rewrite map_map, filter_map. rewrite map_map. f_equal.
    rewrite (filter_ext _ (fun r => satisfies r es2)) by (intros; apply PR).
    rewrite filter_sort_rows. f_equal.
    set (cols := map (ERef u) (seq 0 n)) in *.
    assert (CO : filter (fun r => satisfies r es2)
       (concat (map (fun b : plan * list expr => filter (fun r => satisfies r (snd b)) (map (as_row u) (run (fst b)))) bs)) =
       concat (map (fun b : plan * list expr => filter (fun r => satisfies r (snd b)) (map (as_row u) (run (fst b))))
         (map (fun b : plan * list expr => (fst b, es2 ++ snd b)) bs))).
    { rewrite filter_concat, !map_map. f_equal. apply map_ext. intros [p f]. cbn [fst snd].
      now rewrite filter_app_sat. }
    destruct dist; [|exact CO]. rewrite agg_through; [now rewrite CO|auto| |].
    + destruct n; [|discriminate]. destruct (PU e0 E0) as [PE _]. unfold pushable in PE.
      rewrite !andb_true_iff in PE. destruct PE as ((((NE & _) & _) & PE) & _). cbn in PE.
      destruct (refs e0) as [|[t' s] rs]; [discriminate|]. cbn in PE. destruct s; discriminate.
    + cbn [a_group]. intros r r' EK. apply (QC (plain_refs cols)).
      * intros e x He Hx. apply replace_refs in Hx; auto. destruct Hx as (s & y & _ & X2 & _ & X4).
        apply nth_error_In in X2. unfold cols in *. apply in_map_iff in X2. destruct X2 as (j & <- & Hj).
        cbn in X4. destruct X4 as [<-|[]]. unfold plain_refs. apply in_concat. exists [(u, j)].
        split; [|cbn; auto]. rewrite map_map. apply in_map_iff. eauto.
      * intros. eapply key_cells; eauto.
Qed.

Lemma split_filter t p es rows :
  filter (fun r => satisfies r (staying t p es))
    (filter (fun r => satisfies r (filter (pushable t p) es)) rows) =
  (if has_limit p then
     filter (fun r => satisfies r es) (filter (fun r => satisfies r (filter (pushable t p) es)) rows)
   else filter (fun r => satisfies r es) rows).
Proof.
  unfold staying. destruct (has_limit p); auto. rewrite filter_filter. apply filter_ext. intros r.
  unfold satisfies. induction es as [|e es IH]; cbn; auto.
  destruct (pushable t p e); cbn; rewrite <- IH; destruct (true_val (eval r e)); cbn; auto. now rewrite andb_false_r.
Qed.

Lemma source_step t p es : ok_block p -> Forall nonbare es ->
  (forall es', Forall nonbare es' -> run (push p es') = run (addw p es')) ->
  filter (fun r => satisfies r (staying t p es)) (map (as_row t) (run (push p (going t p es)))) =
  filter (fun r => satisfies r es) (map (as_row t) (run p)).
Proof.
  intros OB NB IH. unfold going. destruct (has_limit p) eqn:HL.
  - rewrite IH by constructor. rewrite addw_nil. unfold staying. now rewrite HL.
  - rewrite IH.
    + rewrite <- pushed_block; auto.
      * rewrite split_filter. now rewrite HL.
      * intros e He. apply filter_In in He. rewrite Forall_forall in NB. split; [tauto|]. apply NB. tauto.
    + apply Forall_forall. intros x Hx. apply in_map_iff in Hx. destruct Hx as (e & <- & He).
      apply filter_In in He. rewrite Forall_forall in NB. apply replace_nonbare. apply NB. tauto.
Qed.

Theorem push_ok p es : ok p -> Forall nonbare es -> run (push p es) = run (addw p es).
Proof.
  revert es. induction p as [rows filt ag hv ws ord lim pr|t p filt ag hv ws ord lim pr IH|bs u n dist ord lim IH]
    using plan_ind'; intros es OK NB.
  - reflexivity.
  - cbn [ok] in OK. destruct OK as (NF & OP & OB). cbn [push addw run].
    rewrite source_step; auto. now apply Forall_app.
  - cbn [push addw run].
    assert (E : map (fun b : plan * list expr => filter (fun r => satisfies r (snd b)) (map (as_row u) (run (fst b))))
        (map (fun b : plan * list expr => (push (fst b) (going u (fst b) (es ++ snd b)), staying u (fst b) (es ++ snd b))) bs) =
      map (fun b : plan * list expr => filter (fun r => satisfies r (snd b)) (map (as_row u) (run (fst b))))
        (map (fun b : plan * list expr => (fst b, es ++ snd b)) bs)).
    { rewrite !map_map. cbn [fst snd]. cbn [ok] in OK. induction bs as [|[p f] bs IHb]; auto.
      cbn [map fold_right fst snd] in *. destruct OK as ((OP & OB & NF) & OK). inversion IH; subst.
      f_equal; auto. apply source_step; auto. now apply Forall_app. }
    now rewrite E.
Qed.

Corollary push_top p : ok p -> run (push p []) = run p.
Proof. intros OK. rewrite push_ok; auto. now rewrite addw_nil. Qed.
