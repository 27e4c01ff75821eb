(* The plan, run as it is, gives the meaning of the statement, outside the refuted cases. *)
From Coq Require Import List ZArith Bool Arith Lia.
From Verif Require Import Derived.Spec Derived.Model Derived.Groups Derived.Push.
Import ListNotations.

Section StmtInd.
  Variable P : stmt -> Prop.
  Hypothesis HT : forall rows d, P (Select (Table rows) d).
  Hypothesis HD : forall t q d, P q -> P (Select (Derived t q) d).
  Hypothesis HU : forall first rest names order limit,
    P first -> Forall (fun x => P (snd x)) rest -> P (Union first rest names order limit).
  Fixpoint stmt_ind' (q : stmt) : P q :=
    match q with
    | Select src d =>
        match src with
        | Table rows => HT rows d
        | Derived t q' => HD t q' d (stmt_ind' q')
        end
    | Union first rest names order limit =>
        HU first rest names order limit (stmt_ind' first)
          ((fix go l : Forall (fun x => P (snd x)) l :=
            match l with
            | [] => Forall_nil _
            | x :: r => Forall_cons _ (match x return P (snd x) with (_, q') => stmt_ind' q' end) (go r)
            end) rest)
    end.
End StmtInd.

Lemma columns_refs e : columns e = refs e.
Proof. reflexivity. Qed.
Lemma computed_has e : computed e = has_agg_win e.
Proof. reflexivity. Qed.

(* ---------- the nodes ---------- *)
Lemma run_window_ok rows w : run_window rows w = windowed rows w.
Proof. unfold run_window, windowed. now rewrite hash_groups_ok. Qed.
Lemma run_windows_ok ws rows : fold_left run_window ws rows = fold_left windowed ws rows.
Proof. revert rows. induction ws as [|w ws IH]; cbn; intros; auto. now rewrite run_window_ok. Qed.

Lemma groups_const rows : groups (fun _ => []) rows = match rows with [] => [] | _ => [rows] end.
Proof.
  destruct rows as [|r rows]; auto. unfold groups.
  assert (D : distinct (map (fun _ : row => @nil val) (r :: rows)) = [[]]).
  { cbn. f_equal. apply filter_false. intros x Hx. apply (proj1 (distinct_in _ _)) in Hx. apply in_map_iff in Hx.
    destruct Hx as (y & <- & _). now rewrite key_eqb_refl. }
  rewrite D. cbn [map]. f_equal. apply filter_true. intros. apply key_eqb_refl.
Qed.

Lemma run_agg_group gs fs seen rows : gs <> [] ->
  run_agg (Some (Agg gs fs seen)) rows = map (group_row fs) (groups (fun r => map (eval r) gs) rows).
Proof. intros NE. unfold run_agg. cbn. rewrite hash_groups_ok. destruct gs; [congruence|]. reflexivity. Qed.

Lemma run_agg_total fs seen rows : run_agg (Some (Agg [] fs seen)) rows = [group_row fs rows].
Proof.
  unfold run_agg. cbn [a_group a_fns map]. rewrite hash_groups_ok, groups_const. destruct rows; reflexivity.
Qed.

Definition plain_row (r : row) : Prop := aggs r = [] /\ wins r = [].

Lemma plain_groups gs rows : (forall r, In r rows -> plain_row r) ->
  map (group_row []) (groups (fun r => map (eval r) gs) rows) =
  map (hd null_row) (groups (fun r => map (eval r) gs) rows).
Proof.
  intros PL. apply map_ext_in. intros g Hg. apply in_groups in Hg. destruct Hg as (k & Hk & ->).
  apply in_map_iff in Hk. destruct Hk as (r & Hr1 & Hr2).
  destruct (filter (fun r0 => key_eqb (map (eval r0) gs) k) rows) as [|h l] eqn:EF.
  - assert (X : In r []) by (rewrite <- EF; apply filter_In; split; auto; now apply key_eqb_true). destruct X.
  - assert (X : In h (h :: l)) by (cbn; auto). rewrite <- EF in X. apply filter_In in X. destruct X as [X _].
    apply PL in X. destruct X as [X1 X2]. cbn. destruct h; cbn in *; subst. reflexivity.
Qed.

Lemma plain_in e es t s : In (ERef t s) es -> e = (t, s) -> In e (plain_refs es).
Proof.
  intros Hin ->. unfold plain_refs. apply in_concat. exists [(t, s)]. split; [|cbn; auto].
  apply in_map_iff. exists (ERef t s). auto.
Qed.

Lemma sel_ok d ag rows : plan_agg d = Some ag -> s_proj d <> [] -> plain_distinct d ->
  (forall r, In r rows -> plain_row r) ->
  map (project (s_proj d)) (cut (s_limit d) (sort_rows (s_order d)
    (fold_left run_window (s_wins d) (filter (fun r => satisfies r (s_having d))
      (run_agg ag (filter (fun r => satisfies r (s_where d)) rows)))))) = sel_result d rows.
Proof.
  intros PA NE PD PL. unfold sel_result, project. f_equal. f_equal. f_equal. unfold sel_rows, grouped, aggregates.
  rewrite run_windows_ok.
  assert (PL' : forall r, In r (filter (fun r => satisfies r (s_where d)) rows) -> plain_row r).
  { intros r Hr. apply filter_In in Hr. apply PL. tauto. }
  revert PL'. generalize (filter (fun r => satisfies r (s_where d)) rows). intros rs PL'.
  unfold plan_agg in PA. unfold plain_distinct in PD.
  destruct (s_group d) as [|g gs] eqn:EG.
  - destruct (s_aggs d) as [|f fs] eqn:EA.
    + destruct (s_distinct d) eqn:ED; injection PA as <-; [|reflexivity].
      destruct (PD eq_refl) as [-> HV]. cbn [fold_left].
      rewrite run_agg_group by auto. rewrite plain_groups by auto.
      set (key := fun r => map (eval r) (s_proj d)).
      rewrite (groups_filter key (fun r => satisfies r (s_having d)) (fun g => satisfies (hd null_row g) (s_having d))).
      * rewrite filter_map. reflexivity.
      * intros r r' EK. unfold satisfies. apply eq_true_iff_eq. rewrite !forallb_forall.
        assert (G : forall e, In e (s_having d) -> eval r e = eval r' e).
        { intros e He. destruct (HV e He eq_refl) as [H1 H2]. rewrite computed_has in H1.
          apply eval_cells; auto. intros t s Hts. rewrite <- columns_refs in Hts. apply H2 in Hts.
          eapply key_cells; [exact EK|]. eapply plain_in; eauto. }
        split; intros X e He; [rewrite <- G by auto|rewrite G by auto]; auto.
      * intros g r Hg Hr. apply in_groups in Hg. destruct Hg as (k & _ & ->).
        apply filter_In in Hr. destruct Hr as [Hr1 Hr2]. apply key_eqb_true in Hr2.
        destruct (filter (fun r0 => key_eqb (key r0) k) rs) as [|h l] eqn:EF.
        -- assert (X : In r []) by (rewrite <- EF; apply filter_In; split; auto; now apply key_eqb_true). destruct X.
        -- assert (Hh : In h (h :: l)) by (cbn; auto). rewrite <- EF in Hh. apply filter_In in Hh.
           destruct Hh as [_ Hh]. apply key_eqb_true in Hh. cbn [hd].
           assert (EK : key h = key r) by congruence. unfold key in EK.
           unfold satisfies. apply eq_true_iff_eq. rewrite !forallb_forall.
           assert (G : forall e, In e (s_having d) -> eval h e = eval r e).
           { intros e He. destruct (HV e He eq_refl) as [H1 H2]. rewrite computed_has in H1.
             apply eval_cells; auto. intros t s Hts. rewrite <- columns_refs in Hts. apply H2 in Hts.
             eapply key_cells; [exact EK|]. eapply plain_in; eauto. }
           split; intros X e He; [rewrite <- G by auto|rewrite G by auto]; auto.
    + injection PA as <-. rewrite run_agg_total. destruct (s_distinct d) eqn:ED; [|reflexivity].
      destruct (PD eq_refl) as [-> _]. cbn [fold_left filter].
      destruct (satisfies (group_row (f :: fs) rs) (s_having d)); [|reflexivity].
      unfold groups. cbn. rewrite key_eqb_refl. reflexivity.
  - destruct (s_distinct d) eqn:ED; [discriminate|]. injection PA as <-.
    rewrite run_agg_group by discriminate. reflexivity.
Qed.

(* ---------- UNION ---------- *)
Lemma name_slot_gen names n i acc :
  fold_left (fun acc m => (S (fst acc), if n =? m then Some (fst acc) else snd acc)) names (i, acc) =
  (i + length names, match position n (rev names) with
                     | Some j => Some (i + length names - 1 - j)
                     | None => acc
                     end).
Proof.
  revert i acc. induction names as [|m names IH]; intros i acc; cbn [fold_left length rev].
  - cbn. now rewrite Nat.add_0_r.
  - rewrite IH. cbn [fst snd]. f_equal; [lia|].
    assert (PA : forall l x, position n (l ++ [x]) = match position n l with
       | Some j => Some j | None => if n =? x then Some (length l) else None end).
    { induction l as [|y l IHl]; intros x; cbn; [now destruct (n =? x)|].
      destruct (n =? y); auto. rewrite IHl. destruct (position n l); cbn; auto. now destruct (n =? x). }
    rewrite PA. destruct (position n (rev names)); [f_equal; lia|].
    destruct (n =? m); auto. rewrite rev_length. f_equal. lia.
Qed.

Lemma position_spec n l i : position n l = Some i -> nth_error l i = Some n.
Proof.
  revert i. induction l as [|m l IH]; cbn; intros i E; [discriminate|].
  destruct (n =? m) eqn:K; [injection E as <-; apply Nat.eqb_eq in K; now subst|].
  destruct (position n l); [|discriminate]. injection E as <-. cbn. auto.
Qed.
Lemma position_none n l : position n l = None -> ~ In n l.
Proof.
  induction l as [|m l IH]; cbn; intros E; auto. destruct (n =? m) eqn:K; [discriminate|].
  destruct (position n l); [discriminate|]. apply Nat.eqb_neq in K. intros [X|X]; [congruence|]. now apply IH.
Qed.

Lemma name_slot_position names n : NoDup names -> name_slot names n = position n names.
Proof.
  intros ND. unfold name_slot. rewrite name_slot_gen. cbn [snd]. cbn [plus].
  destruct (position n (rev names)) as [j|] eqn:E.
  - apply position_spec in E.
    assert (J : j < length names). { rewrite <- rev_length. apply nth_error_Some. congruence. }
    assert (X : nth_error names (length names - 1 - j) = Some n).
    { apply nth_error_nth with (d := 0) in E. rewrite rev_nth in E by auto.
      replace (length names - 1 - j) with (length names - S j) by lia.
      rewrite <- E. apply nth_error_nth'. lia. }
    destruct (position n names) as [i|] eqn:EI.
    + apply position_spec in EI. f_equal. rewrite NoDup_nth_error in ND. apply ND; [lia|congruence].
    + apply position_none in EI. apply nth_error_In in X. tauto.
  - apply position_none in E. rewrite <- in_rev in E. destruct (position n names) eqn:EI; auto.
    apply position_spec in EI. apply nth_error_In in EI. tauto.
Qed.

Lemma all_some_map {A B} (f : A -> option B) l l' : all_some (map f l) = Some l' ->
  length l' = length l /\ forall i x, nth_error l i = Some x -> exists y, nth_error l' i = Some y /\ f x = Some y.
Proof.
  revert l'. induction l as [|x l IH]; cbn; intros l' E.
  - injection E as <-. split; auto. intros [|i] x; discriminate.
  - destruct (f x) as [y|] eqn:F; [|discriminate]. destruct (all_some (map f l)) as [k|]; [|discriminate].
    injection E as <-. destruct (IH k eq_refl) as [L R]. cbn. split; [lia|].
    intros [|i] z Hz; cbn in Hz |- *; [injection Hz as <-; eauto|]. auto.
Qed.

Lemma union_order_ok u names order ord vs : NoDup names -> union_order u names order = Some ord ->
  order_row ord (as_row u vs) = order_vals names order vs.
Proof.
  intros ND. unfold union_order, order_row, order_vals. revert ord.
  induction order as [|[n asc] order IH]; cbn; intros ord E; [now injection E as <-|].
  rewrite name_slot_position in E by auto. destruct (position n names) as [i|]; [|discriminate]. cbn in E.
  destruct (all_some _) as [k|]; [|discriminate]. injection E as <-. cbn. rewrite Nat.eqb_refl. f_equal. auto.
Qed.

Lemma union_distinct_true ops : union_distinct (ops ++ [true]) = true.
Proof. unfold union_distinct. rewrite fold_left_app. cbn. now destruct (fold_left _ ops false). Qed.
Lemma union_distinct_false ops : Forall (fun b => b = false) ops -> union_distinct ops = false.
Proof.
  unfold union_distinct. induction ops as [|b ops IH]; cbn; auto. intros F. inversion F; subst. auto.
Qed.

Definition union_fold (rest : list (bool * list (list val))) (acc : list (list val)) :=
  fold_left (fun acc (x : bool * list (list val)) =>
    let both := acc ++ snd x in if fst x then distinct both else both) rest acc.

Lemma union_fold_all rest acc : Forall (fun b => b = false) (map fst rest) ->
  union_fold rest acc = acc ++ concat (map snd rest).
Proof.
  unfold union_fold. revert acc. induction rest as [|[b l] rest IH]; cbn; intros acc F; [now rewrite app_nil_r|].
  inversion F; subst. rewrite IH by auto. now rewrite app_assoc.
Qed.

Lemma union_fold_distinct rest acc :
  distinct (union_fold rest acc) = distinct (acc ++ concat (map snd rest)).
Proof.
  unfold union_fold. revert acc. induction rest as [|[b l] rest IH]; cbn; intros acc; [now rewrite app_nil_r|].
  rewrite IH. destruct b.
  - rewrite distinct_distinct_app. now rewrite app_assoc.
  - now rewrite app_assoc.
Qed.

Lemma union_fold_ok rest acc names : plain_union (map fst rest) names ->
  union_fold rest acc =
  if union_distinct (map fst rest) then distinct (acc ++ concat (map snd rest)) else acc ++ concat (map snd rest).
Proof.
  intros [[F|(ops' & E)] _].
  - rewrite union_distinct_false by auto. now apply union_fold_all.
  - rewrite E, union_distinct_true.
    destruct rest as [|x0 rest0] using rev_ind; [destruct ops'; discriminate|]. clear IHrest0.
    rewrite map_app in E. cbn in E. apply app_inj_tail in E. destruct E as [_ E]. destruct x0 as [b l]. cbn in E. subst b.
    rewrite <- union_fold_distinct. unfold union_fold. rewrite !fold_left_app. cbn.
    symmetry. apply distinct_id. apply distinct_nodup.
Qed.

Definition lens (n : nat) (l : list (list val)) : Prop := forall v, In v l -> length v = n.

Lemma cols_id u n v : length v = n -> project (map (ERef u) (seq 0 n)) (as_row u v) = v.
Proof.
  intros <-. unfold project. rewrite map_map. cbn. rewrite Nat.eqb_refl.
  induction v as [|x v IH]; auto. cbn [length seq map nth]. f_equal. rewrite <- seq_shift, map_map. exact IH.
Qed.

Lemma as_row_distinct u n L : lens n L ->
  map (hd null_row) (groups (fun r => map (eval r) (map (ERef u) (seq 0 n))) (map (as_row u) L)) =
  map (as_row u) (distinct L).
Proof.
  intros LE. unfold groups. rewrite map_map.
  assert (KL : map (fun r => map (eval r) (map (ERef u) (seq 0 n))) (map (as_row u) L) = L).
  { rewrite map_map. rewrite <- (map_id L) at 2. apply map_ext_in. intros v Hv. apply cols_id. auto. }
  rewrite KL. apply map_ext_in. intros v Hv. apply (proj1 (distinct_in _ _)) in Hv.
  rewrite filter_map.
  assert (X : forall w, In w (filter (fun x => key_eqb (map (eval (as_row u x)) (map (ERef u) (seq 0 n))) v) L) -> w = v).
  { intros w Hw. apply filter_In in Hw. destruct Hw as [Hw1 Hw2]. apply key_eqb_true in Hw2.
    rewrite <- Hw2. symmetry. apply cols_id. auto. }
  assert (Y : In v (filter (fun x => key_eqb (map (eval (as_row u x)) (map (ERef u) (seq 0 n))) v) L)).
  { apply filter_In. split; auto. apply key_eqb_true. apply cols_id. auto. }
  destruct (filter _ L) as [|w l]; [destruct Y|]. cbn. now rewrite (X w) by (cbn; auto).
Qed.

Lemma sort_lens {A} (le : A -> A -> bool) l x : In x (sort le l) -> In x l.
Proof. revert x. induction l as [|z l IH]; cbn; [tauto|]. intros x. rewrite insert_in. intuition. Qed.

Lemma firstn_in {A} n (l : list A) x : In x (firstn n l) -> In x l.
Proof. rewrite <- (firstn_skipn n l) at 2. rewrite in_app_iff. auto. Qed.
Lemma skipn_in {A} n (l : list A) x : In x (skipn n l) -> In x l.
Proof. rewrite <- (firstn_skipn n l) at 2. rewrite in_app_iff. auto. Qed.

Lemma cut_in {A} lim (l : list A) x : In x (cut lim l) -> In x l.
Proof.
  destruct lim as [[o c]|]; cbn; auto. intros E. apply firstn_in in E. now apply skipn_in in E.
Qed.

(* What a UNION makes of the rows of its branches. *)
Lemma run_union (tabs : list (list (list val))) (ps : list plan) n dist names order ord lim :
  map run ps = tabs -> (forall l, In l tabs -> lens n l) -> n <> 0 -> NoDup names ->
  union_order 0 names order = Some ord ->
  run (PUni (map (fun p' => (p', [])) ps) 0 n dist ord lim) =
  cut lim (sort (fun a b => keys_le (order_vals names order a) (order_vals names order b))
    (if dist then distinct (concat tabs) else concat tabs)).
Proof.
  intros <- LE NZ ND UO. cbn [run]. rewrite map_map. cbn [fst snd].
  set (L := concat (map run ps)).
  assert (CC : concat (map (fun x => filter (fun r => satisfies r []) (map (as_row 0) (run x))) ps) = map (as_row 0) L).
  { unfold L. rewrite concat_map, map_map. f_equal. apply map_ext. intros x. now apply filter_true. }
  rewrite CC.
  assert (LL : lens n L).
  { intros v Hv. apply in_concat in Hv. destruct Hv as (l & Hl & Hv). eapply LE; eauto. }
  set (cols := map (ERef 0) (seq 0 n)).
  assert (KE : (if dist then run_agg (Some (Agg cols [] cols)) (map (as_row 0) L) else map (as_row 0) L) =
               map (as_row 0) (if dist then distinct L else L)).
  { destruct dist; auto. rewrite run_agg_group by (unfold cols; destruct n; [congruence|discriminate]).
    rewrite plain_groups.
    - now apply as_row_distinct.
    - intros r Hr. apply in_map_iff in Hr. destruct Hr as (v & <- & _). split; reflexivity. }
  rewrite KE.
  assert (LK : lens n (if dist then distinct L else L)).
  { destruct dist; auto. intros v Hv. apply LL. now apply distinct_in. }
  revert LK. generalize (if dist then distinct L else L). intros K LK.
  unfold sort_rows. rewrite sort_map, cut_map, map_map.
  rewrite (sort_ext _ (fun a b => keys_le (order_vals names order a) (order_vals names order b))).
  2:{ intros a b _ _. now rewrite !(union_order_ok 0 names order ord). }
  rewrite <- (map_id (cut _ _)) at 2. apply map_ext_in. intros v Hv. apply cols_id. apply LK.
  apply cut_in in Hv. now apply sort_lens in Hv.
Qed.

Lemma run_lens p : lens (width p) (run p).
Proof.
  destruct p as [src filt ag hv ws ord lim pr|bs u n dist ord lim]; cbn; intros v Hv;
    apply in_map_iff in Hv; destruct Hv as (r & <- & _); unfold project; rewrite !map_length; auto.
  now rewrite seq_length.
Qed.

Lemma plan_width q p : plan_of q = Some p -> width p <> 0.
Proof.
  revert p. induction q as [rows d|t q d IH|f rest names order limit IH _] using stmt_ind'; cbn; intros p E.
  - destruct (s_proj d) as [|x pr] eqn:EP; [discriminate|].
    destruct (plan_agg d); [|discriminate]. injection E as <-. cbn. discriminate.
  - destruct (s_proj d) as [|x pr] eqn:EP; [discriminate|].
    destruct (plan_of q); [|discriminate]. cbn in E.
    destruct (plan_agg d); [|discriminate]. injection E as <-. cbn. discriminate.
  - destruct (plan_of f); [|discriminate]. destruct (all_some _); [|discriminate].
    destruct (union_order 0 names order); [|discriminate].
    destruct (_ && _); [|discriminate]. injection E as <-. cbn. now apply IH.
Qed.

Lemma all_some_plans (rest : list (bool * stmt)) ps :
  all_some (map (fun x : bool * stmt => plan_of (snd x)) rest) = Some ps ->
  Forall2 (fun x p => plan_of (snd x) = Some p) rest ps.
Proof.
  revert ps. induction rest as [|x rest IH]; cbn; intros ps E; [injection E as <-; constructor|].
  destruct (plan_of (snd x)) eqn:EX; [|discriminate]. destruct (all_some _) as [k|]; [|discriminate].
  injection E as <-. constructor; auto.
Qed.

Lemma plan_union f rest names order limit p : plan_of (Union f rest names order limit) = Some p ->
  exists pf ps ord, plan_of f = Some pf /\ Forall2 (fun x p' => plan_of (snd x) = Some p') rest ps /\
    union_order 0 names order = Some ord /\ (forall p', In p' ps -> width p' = width pf) /\
    p = PUni (map (fun p' => (p', [])) (pf :: ps)) 0 (width pf) (union_distinct (map fst rest)) ord limit.
Proof.
  cbn. destruct (plan_of f) as [pf|]; [|discriminate].
  destruct (all_some (map _ rest)) as [ps|] eqn:EP; [|discriminate].
  destruct (union_order 0 names order) as [ord|]; [|discriminate].
  destruct (_ && _) eqn:W; [|discriminate]. intros E. injection E as <-.
  apply andb_true_iff in W. destruct W as [W _]. rewrite forallb_forall in W.
  exists pf, ps, ord. repeat split; auto.
  - now apply all_some_plans.
  - intros p' Hp. apply Nat.eqb_eq. auto.
Qed.

Theorem plan_run q p : plan_of q = Some p -> all_selects plain_distinct q -> all_unions plain_union q ->
  run p = meaning q.
Proof.
  revert p. induction q as [rows d|t q d IH|f rest names order limit IHf IHr] using stmt_ind'; intros p E PD PU.
  - cbn in E. destruct (s_proj d) as [|x pr] eqn:EP; [discriminate|].
    destruct (plan_agg d) as [ag|] eqn:EA; [|discriminate]. injection E as <-. cbn [run meaning source_rows].
    rewrite <- EP. apply sel_ok; auto; [congruence|apply PD|].
    intros r Hr. apply in_map_iff in Hr. destruct Hr as (c & <- & _). split; reflexivity.
  - cbn in E. destruct (s_proj d) as [|x pr] eqn:EP; [discriminate|].
    destruct (plan_of q) as [p'|]; [|discriminate]. cbn in E.
    destruct (plan_agg d) as [ag|] eqn:EA; [|discriminate]. injection E as <-. cbn [run meaning source_rows].
    destruct PD as [PD PD']. cbn in PU, PD'. rewrite (IH p') by auto.
    rewrite <- EP. apply sel_ok; auto; [congruence|].
    intros r Hr. apply in_map_iff in Hr. destruct Hr as (c & <- & _). split; reflexivity.
  - apply plan_union in E. destruct E as (pf & ps & ord & E1 & E2 & E3 & W & ->).
    cbn in PD, PU. destruct PD as [PD1 PD2]. destruct PU as (PU0 & PU1 & PU2).
    pose proof (IHf pf E1 PD1 PU1) as EF.
    assert (ER : map run ps = map (fun x : bool * stmt => meaning (snd x)) rest).
    { clear - E2 IHr PD2 PU2. induction E2 as [|x p' rest ps EX E2 IH]; auto.
      inversion IHr; subst. cbn in PD2, PU2. destruct PD2, PU2. cbn. f_equal; auto. }
    rewrite (run_union (meaning f :: map (fun x : bool * stmt => meaning (snd x)) rest) (pf :: ps) (width pf) _ names order);
      [| | |eapply plan_width; eauto|apply PU0|exact E3].
    + cbn [meaning]. f_equal. f_equal.
      pose proof (union_fold_ok (map (fun x : bool * stmt => (fst x, meaning (snd x))) rest) (meaning f) names) as U.
      rewrite !map_map in U. cbn [fst snd] in U. specialize (U PU0). cbn [concat].
      etransitivity; [symmetry; exact U|]. unfold union_fold. clear. generalize (meaning f).
      induction rest as [|x rest IH]; intros acc; cbn; auto.
    + cbn [map]. now rewrite EF, ER.
    + intros l [<-|Hl]; [rewrite <- EF; apply run_lens|]. rewrite <- ER in Hl. apply in_map_iff in Hl.
      destruct Hl as (p' & <- & Hp). rewrite <- (W p' Hp). apply run_lens.
Qed.

(* ---------- the plans of good statements are good ---------- *)
Lemma plain_refs_in r es : In r (plain_refs es) <-> In (ERef (fst r) (snd r)) es.
Proof.
  unfold plain_refs. rewrite in_concat. split.
  - intros (l & Hl & Hr). apply in_map_iff in Hl. destruct Hl as (e & <- & He).
    destruct e; cbn in Hr; try tauto. destruct Hr as [<-|[]]. exact He.
  - intros E. exists [r]. split; [|cbn; auto]. apply in_map_iff. eexists. split; [|exact E]. cbn. now destruct r.
Qed.

Lemma good_agg d ag : plan_agg d = Some ag -> s_proj d <> [] ->
  no_constant_beside_total d -> full_group_by d -> ok_agg ag (s_proj d).
Proof.
  intros PA NE NC FG. unfold plan_agg in PA. unfold no_constant_beside_total, full_group_by in *.
  destruct (s_group d) as [|g gs] eqn:EG.
  - destruct (s_aggs d) as [|f fs].
    + destruct (s_distinct d); injection PA as <-; cbn; [|auto]. split; [intros; congruence|auto].
    + injection PA as <-. cbn. split.
      * intros _ x Hx CX. apply (NC eq_refl); auto. discriminate.
      * destruct (s_dargs d) as [|a l]; [left; cbn; tauto|]. right. intros x Hx CX [t s] Hr.
        assert (NEA : a :: l <> []) by discriminate. apply (FG NEA x Hx CX) in Hr. destruct Hr.
  - destruct (s_distinct d); [discriminate|]. injection PA as <-. cbn [ok_agg a_group a_seen]. split; [discriminate|].
    destruct (s_dargs d) as [|a l] eqn:EDA; [left; now rewrite app_nil_r|]. right. intros x Hx CX [t s] Hr.
    assert (NEA : a :: l <> []) by discriminate. apply plain_refs_in. apply (FG NEA x Hx CX). exact Hr.
Qed.

Lemma good_plan q p : plan_of q = Some p ->
  all_selects no_bare_condition q ->
  (inner_selects no_constant_beside_total q -> inner_selects full_group_by q -> ok p) /\
  (all_selects no_constant_beside_total q -> all_selects full_group_by q -> ok_block p).
Proof.
  revert p. induction q as [rows d|t q d IH|f rest names order limit IHf IHr] using stmt_ind'; intros p E NB.
  - cbn in E. destruct (s_proj d) as [|x pr] eqn:EP; [discriminate|].
    destruct (plan_agg d) as [ag|] eqn:EA; [|discriminate]. injection E as <-. rewrite <- EP. destruct NB as [NB _]. split.
    + intros _ _. cbn. split; auto. apply Forall_forall. exact NB.
    + intros [NC _] [FG _]. apply good_agg; auto; congruence.
  - cbn in E. destruct (s_proj d) as [|x pr] eqn:EP; [discriminate|].
    destruct (plan_of q) as [p'|]; [|discriminate]. cbn in E.
    destruct (plan_agg d) as [ag|] eqn:EA; [|discriminate]. injection E as <-. rewrite <- EP. destruct NB as [NB NB'].
    destruct (IH p' eq_refl NB') as [IH1 IH2].
    assert (IN : forall P, all_selects P q -> inner_selects P q) by (intros P; destruct q; cbn; tauto).
    split.
    + intros NC FG. cbn in NC, FG. cbn. repeat split; auto. apply Forall_forall. exact NB.
    + intros [NC _] [FG _]. apply good_agg; auto; congruence.
  - apply plan_union in E. destruct E as (pf & ps & ord & E1 & E2 & E3 & W & ->). cbn in NB. destruct NB as [NB1 NB2].
    split; [|cbn; auto]. intros NC FG. cbn in NC, FG. destruct NC as [NC1 NC2]. destruct FG as [FG1 FG2].
    assert (IN : forall P q0, all_selects P q0 -> inner_selects P q0) by (intros P q0; destruct q0; cbn; tauto).
    cbn. destruct (IHf pf E1 NB1) as [A1 A2]. repeat split; auto.
    clear - E2 IHr NB2 NC2 FG2 IN. induction E2 as [|x p' rest ps EX E2 IH]; cbn; auto.
    inversion IHr as [|? ? I1 I2]; subst. cbn in NB2, NC2, FG2. destruct NB2, NC2, FG2.
    destruct (I1 p' EX) as [B1 B2]; auto 10.
Qed.

Theorem answer_ok q rows : answer q = Some rows ->
  all_selects no_bare_condition q -> inner_selects no_constant_beside_total q -> inner_selects full_group_by q ->
  all_selects plain_distinct q -> all_unions plain_union q ->
  rows = meaning q.
Proof.
  unfold answer. destruct (plan_of q) as [p|] eqn:EP; [|discriminate]. cbn. intros E NB NC FG PD PU. injection E as <-.
  rewrite push_top.
  - now apply plan_run.
  - now apply (good_plan q p EP NB).
Qed.

(* The answer to a UNION is made from the answers to its branches, whatever they are. *)
Lemma push_branches ps u n dist ord lim :
  push (PUni (map (fun p' => (p', [])) ps) u n dist ord lim) [] =
  PUni (map (fun p' => (p', [])) (map (fun p' => push p' []) ps)) u n dist ord lim.
Proof.
  cbn. f_equal. rewrite !map_map. apply map_ext. intros p. cbn. unfold going, staying.
  now destruct (has_limit p).
Qed.

Lemma push_width p es : width (push p es) = width p.
Proof. destruct p as [src ? ? ? ? ? ? ?|? ? ? ? ? ?]; cbn; auto. destruct src; reflexivity. Qed.

Theorem union_answer f rest names order limit rows first others :
  answer (Union f rest names order limit) = Some rows ->
  answer f = Some first -> Forall2 (fun x a => answer (snd x) = Some (snd a) /\ fst x = fst a) rest others ->
  plain_union (map fst rest) names ->
  rows = cut limit (sort (fun a b => keys_le (order_vals names order a) (order_vals names order b))
           (union_fold others first)).
Proof.
  intros A AF AO PU. unfold answer in A. destruct (plan_of (Union f rest names order limit)) as [p|] eqn:EP; [|discriminate].
  injection A as <-. apply plan_union in EP. destruct EP as (pf & ps & ord & E1 & E2 & E3 & W & ->).
  rewrite push_branches.
  assert (EF : first = run (push pf [])) by (unfold answer in AF; rewrite E1 in AF; cbn in AF; congruence).
  assert (EO : map fst others = map fst rest /\ map snd others = map (fun p' => run (push p' [])) ps).
  { clear - E2 AO. revert ps E2. induction AO as [|x a rest others [HA HF] AO IH]; intros ps E2;
      inversion E2 as [|? ? ? ? X1 X2]; subst; auto.
    destruct (IH _ X2) as [I1 I2]. cbn. split; f_equal; auto.
    unfold answer in HA. rewrite X1 in HA. cbn in HA. congruence. }
  destruct EO as [EO1 EO2].
  rewrite (run_union (first :: map snd others) (map (fun p' => push p' []) (pf :: ps)) (width pf) _ names order); [| | | | |exact E3].
  - f_equal. f_equal. rewrite <- EO1 in PU |- *. rewrite (union_fold_ok _ _ names) by auto. reflexivity.
  - cbn [map]. rewrite EF, EO2. now rewrite map_map.
  - intros l [<-|Hl].
    + rewrite EF. rewrite <- (push_width pf []). apply run_lens.
    + rewrite EO2 in Hl. apply in_map_iff in Hl. destruct Hl as (p' & <- & Hp). rewrite <- (W p' Hp), <- (push_width p' []). apply run_lens.
  - eapply plan_width; eauto.
  - apply PU.
Qed.
