(* Proofs: the loop of the node. *)
From Coq Require Import List ZArith Bool Lia Sorting.Sorted.
From Verif Require Import Common.Bytes Key.Model Key.Spec Agg.Model Agg.Spec Agg.Lists Agg.Group Agg.Top.
From Verif Require Import Window.Model Window.Spec Window.Fn Window.Node.
Import ListNotations.
Local Open Scope nat_scope.

Lemma ends_nth l : forall a n, n < length l -> nth_error (ends a l) n = Some (a + length (concat (firstn (S n) l))).
Proof.
  induction l as [|g l IH]; intros a n L; [cbn in L; lia|]. destruct n as [|n].
  - cbn. rewrite app_nil_r. reflexivity.
  - cbn [ends nth_error]. rewrite IH by (cbn in L; lia). cbn [firstn concat]. rewrite !app_length. f_equal. lia.
Qed.
Lemma take_ok b l n g : concat l = b -> Forall (fun g => g <> []) l -> nth_error l n = Some g ->
  take_partition b (ends 0 l) n = Some (g, length (concat (firstn (S n) l))).
Proof.
  intros E N G. assert (n < length l) as L by (apply nth_error_Some; congruence).
  assert (g <> []) as Ng by (rewrite Forall_forall in N; apply N; eapply nth_error_In; exact G).
  pose proof (Rank.firstn_snoc _ _ _ G) as Es.
  assert (length (concat (firstn (S n) l)) = length (concat (firstn n l)) + length g) as Le.
  { rewrite Es, concat_app, app_length. cbn. rewrite app_nil_r. reflexivity. }
  unfold take_partition, next_partition. rewrite (ends_nth l 0 n L). cbn [Nat.add].
  assert (match n with 0 => 0 | S k => nth k (ends 0 l) 0 end = length (concat (firstn n l))) as ->.
  { destruct n as [|n]; [reflexivity|]. apply nth_error_nth. rewrite (ends_nth l 0 n) by lia. reflexivity. }
  assert (b = concat (firstn n l) ++ g ++ concat (skipn (S n) l)) as Eb.
  { rewrite <- E at 1. rewrite <- (firstn_skipn (S n) l) at 1. rewrite Es. rewrite !concat_app. cbn [concat]. now rewrite app_nil_r, <- app_assoc. }
  destruct (Nat.ltb_spec (length b) (length (concat (firstn (S n) l)))).
  { rewrite Eb, !app_length in *. lia. }
  destruct (Nat.leb_spec (length (concat (firstn (S n) l))) (length (concat (firstn n l)))).
  { destruct g; [congruence|]. cbn [length] in Le. lia. }
  cbn [orb]. f_equal. f_equal. unfold slice. rewrite Eb at 1.
  rewrite skipn_app, skipn_all2, Nat.sub_diag by lia. cbn [skipn app].
  rewrite Le. replace (length (concat (firstn n l)) + length g - length (concat (firstn n l))) with (length g + 0) by lia.
  rewrite firstn_app_2. cbn. apply app_nil_r.
Qed.
Lemma concat_len_lt (l : list (list row)) n : Forall (fun g => g <> []) l -> S n < length l -> length (concat (firstn (S n) l)) < length (concat l).
Proof.
  intros N L. rewrite <- (firstn_skipn (S n) l) at 2. rewrite concat_app, app_length.
  destruct (skipn (S n) l) as [|g q] eqn:E.
  - assert (length (skipn (S n) l) = 0) as K by now rewrite E. rewrite skipn_length in K. lia.
  - assert (In g l) as Hg. { rewrite <- (firstn_skipn (S n) l), E. apply in_app_iff. right. now left. }
    rewrite Forall_forall in N. specialize (N g Hg). destruct g; [congruence|]. cbn. lia.
Qed.

Section Loop.
Variable w : wnode.
Notation gs := (w_part w).
Variable ans : list row -> list orow.
Variable Good : list row -> Prop.
Hypothesis Hproc : forall p, Good p -> forall is, Forall2 shaped (w_fns w) is ->
  exists is', process_one_partition (w_keys w) (w_mode w) (w_fns w) is p = Some (is', ans p) /\ Forall2 shaped (w_fns w) is'.

Lemma runs_split rows : rows <> [] -> exists cur rest, rows = cur ++ rest /\ cur <> [] /\ allsame gs cur /\ cut gs cur rest /\ runs gs rows = cur :: runs gs rest.
Proof.
  intros N. destruct (runs_inv gs rows N) as (cur & rest & E & Nc & A & C). exists cur, rest. subst rows.
  repeat (split; [assumption || reflexivity|]). apply runs_cut; assumption.
Qed.
Lemma runs_skip n : forall rows, skipn n (runs gs rows) = runs gs (concat (skipn n (runs gs rows))).
Proof.
  induction n as [|n IH]; intros rows; [cbn [skipn]; now rewrite runs_concat|].
  destruct rows as [|r q]; [reflexivity|].
  destruct (runs_split (r :: q) ltac:(discriminate)) as (cur & rest & _ & _ & _ & _ & ->). cbn [skipn]. apply IH.
Qed.

Definition pending (st : wstate) : list row :=
  if has_cache st then concat (skipn (ws_next st) (runs gs (ws_batch st))) else [].
Definition left_rows (st : wstate) : list row := pending st ++ (if ws_eos st then [] else fed (ws_child st)).
Record inv (st : wstate) : Prop := {
  inv_offs : has_cache st = true -> ws_offs st = ends 0 (runs gs (ws_batch st));
  inv_feed : ws_eos st = false -> feed (ws_child st);
  inv_key : has_cache st = true -> ws_eos st = false -> key_of_last gs (ws_batch st) (ws_last st);
  inv_fns : Forall2 shaped (w_fns w) (ws_fns st);
  inv_groupable : Forall (groupable gs) (left_rows st);
  inv_together : together gs (left_rows st);
  inv_good : Forall Good (runs gs (left_rows st)) }.

Lemma extend_stop child st cur e : (e =? length (ws_batch st)) && negb (ws_eos st) = false -> extend gs child st cur e = Some (st, cur).
Proof. intros K. destruct child; cbn [extend]; now rewrite K. Qed.
Lemma fed_cons b eos rest : fed ((b, eos) :: rest) = b ++ fed rest.
Proof. reflexivity. Qed.

Lemma extend_ok child : forall st cur a r0,
  ws_child st = child -> has_cache st = false -> (ws_eos st = false -> feed child) ->
  cur = a ++ [r0] -> allsame gs cur -> (gs = [] \/ ws_last st = group_key gs r0) -> Forall (groupable gs) cur ->
  Forall (groupable gs) (if ws_eos st then [] else fed child) -> together gs (cur ++ (if ws_eos st then [] else fed child)) ->
  exists st' cur', extend gs child st cur (length (ws_batch st)) = Some (st', cur') /\
    cur' ++ left_rows st' = cur ++ (if ws_eos st then [] else fed child) /\ cur' <> [] /\ allsame gs cur' /\ cut gs cur' (left_rows st') /\
    (has_cache st' = true -> ws_offs st' = ends 0 (runs gs (ws_batch st'))) /\ (ws_eos st' = false -> feed (ws_child st')) /\
    (has_cache st' = true -> ws_eos st' = false -> key_of_last gs (ws_batch st') (ws_last st')) /\
    ws_fns st' = ws_fns st /\ ws_returned st' = ws_returned st /\
    (if ws_eos st' then 0 else length (ws_child st')) <= (if ws_eos st then 0 else length child).
Proof.
  induction child as [|(b, eos) rest IH]; intros st cur a r0 Ec Hc Hf Ecur A K Gc Gr T; destruct (ws_eos st) eqn:Eo.
  1, 3: exists st, cur; rewrite extend_stop by (rewrite Eo; apply andb_false_r); split; [reflexivity|];
    unfold left_rows, pending; rewrite Hc, Eo; cbn [app]; rewrite Ec;
    split; [reflexivity|]; split; [rewrite Ecur; destruct a; discriminate|]; split; [exact A|]; split; [exact Logic.I|];
    repeat (split; [congruence|]); lia.
  - specialize (Hf eq_refl). inversion Hf.
  - specialize (Hf eq_refl). cbn [extend]. rewrite Nat.eqb_refl, Eo. cbn [andb negb].
    assert (cur <> []) as Nc by (rewrite Ecur; destruct a; discriminate).
    assert (groupable gs r0) as G0. { rewrite Forall_forall in Gc. apply Gc. rewrite Ecur. apply in_app_iff. right. now left. }
    assert (eos = false -> feed rest) as Hf' by (intros ->; inversion Hf; assumption).
    assert (eos = true -> rest = []) as He by (intros ->; inversion Hf; reflexivity).
    rewrite fed_cons in *.
    destruct b as [|r q].
    + inversion Hf; subst; [|congruence].
      do 2 eexists. split; [reflexivity|]. unfold left_rows, pending, has_cache in *. cbn [ws_next ws_offs ws_eos ws_child ws_batch ws_last ws_fns ws_returned] in *.
      rewrite Hc. cbn [app fed map concat]. split; [reflexivity|]. split; [exact Nc|]. split; [exact A|]. split; [exact Logic.I|].
      repeat (split; [congruence|]). lia.
    + apply Forall_app in Gr. destruct Gr as (Gb & Grest).
      assert (together gs (r :: q)) as Tb.
      { apply (together_sub gs cur (r :: q) (fed rest)). exact T. }
      destruct (split_ok gs (ws_last st) r q Gb Tb) as (lastk & belongs & -> & KL & Bl).
      specialize (Bl r0 G0 K).
      destruct (runs_split (r :: q) ltac:(discriminate)) as (g & q' & Eb & Ng & Ag & Cg & Er).
      assert (exists g', g = r :: g') as (g' & Eg') by (destruct g; [congruence|]; injection Eb as <- _; eauto).
      assert ((if eos then [] else fed rest) = fed rest) as Efr.
      { destruct eos; [rewrite (He eq_refl); reflexivity|reflexivity]. }
      destruct belongs.
      * rewrite (take_ok (r :: q) (runs gs (r :: q)) 0 g); [|apply runs_concat|apply runs_nonempty|rewrite Er; reflexivity].
        rewrite Er. cbn [firstn concat]. rewrite app_nil_r.
        assert (forall x y, In x cur -> In y g -> same_group gs x y = true) as X.
        { intros x y Hx Hy. apply same_group_trans with r0.
          - apply A; [exact Hx|rewrite Ecur; apply in_app_iff; right; now left].
          - apply same_group_trans with r; [symmetry; exact Bl|]. apply Ag; [rewrite Eg'; now left|exact Hy]. }
        assert (allsame gs (cur ++ g)) as A'.
        { intros x y Hx Hy. apply in_app_iff in Hx, Hy. destruct Hx as [Hx|Hx], Hy as [Hy|Hy];
            [now apply A|now apply X|rewrite same_group_sym; now apply X|now apply Ag]. }
        assert (exists a' r1, cur ++ g = a' ++ [r1] /\ (q' = [] -> gs = [] \/ lastk = group_key gs r1)) as (a' & r1 & Ea' & K').
        { destruct (last_snoc r g') as (a2 & E2). rewrite <- Eg' in E2. exists (cur ++ a2), (last g' r). rewrite <- app_assoc, <- E2. split; [reflexivity|].
          intros ->. rewrite app_nil_r in Eb. destruct KL as [KL|(a3 & r3 & E3 & K3)]; [now left|right].
          rewrite Eb, E2 in E3. apply app_inj_tail in E3. destruct E3 as (_ & <-). exact K3. }
        set (st1 := WS rest (r :: q) (ends 0 (g :: runs gs q')) 1 lastk eos (ws_fns st) (ws_returned st)).
        destruct q' as [|h q'].
        -- (* the whole batch *)
           rewrite app_nil_r in Eb.
           replace (length g) with (length (ws_batch st1)) by (unfold st1; cbn [ws_batch]; now rewrite Eb).
           destruct (IH st1 (cur ++ g) a' r1) as (st' & cur' & E1 & E2 & R); try assumption.
           ++ reflexivity.
           ++ reflexivity.
           ++ apply K'. reflexivity.
           ++ apply Forall_app. split; [exact Gc|]. rewrite <- Eb. exact Gb.
           ++ unfold st1. cbn [ws_eos]. rewrite Efr. exact Grest.
           ++ unfold st1. cbn [ws_eos]. rewrite Efr, <- app_assoc, <- Eb. exact T.
           ++ exists st', cur'. split; [exact E1|]. rewrite E2. unfold st1 in *. cbn [ws_eos ws_fns ws_returned] in *. rewrite Efr, <- app_assoc, <- Eb.
              split; [reflexivity|]. destruct R as (R1 & R2 & R3 & R4 & R5 & R6 & R7 & R8 & R9).
              repeat (split; [assumption|]). cbn [length]. destruct eos; lia.
        -- rewrite extend_stop.
           2:{ unfold st1. cbn [ws_batch]. rewrite Eb, app_length. cbn [length]. destruct (Nat.eqb_spec (length g) (length g + S (length q'))); [lia|reflexivity]. }
           exists st1, (cur ++ g). split; [reflexivity|].
           assert (has_cache st1 = true) as Hc1.
           { unfold has_cache, st1. cbn [ws_next ws_offs]. rewrite ends_length. cbn [length].
             destruct (runs_split (h :: q') ltac:(discriminate)) as (? & ? & _ & _ & _ & _ & ->). cbn [length]. reflexivity. }
           assert (left_rows st1 = (h :: q') ++ fed rest) as El.
           { unfold left_rows, pending. rewrite Hc1. unfold st1. cbn [ws_next ws_batch ws_eos ws_child]. rewrite Er. cbn [skipn]. now rewrite runs_concat, Efr. }
           rewrite El. split; [rewrite Eb, <- !app_assoc; reflexivity|]. split; [destruct cur; [congruence|discriminate]|]. split; [exact A'|].
           split.
           { cbn [app cut]. intros x Hx. apply in_app_iff in Hx. destruct Hx as [Hx|Hx]; [|now apply Cg].
             destruct (same_group gs x h) eqn:Sx; [|reflexivity]. rewrite <- (Cg r ltac:(rewrite Eg'; now left)). symmetry.
             apply same_group_trans with x; [|exact Sx]. rewrite same_group_sym. apply X; [exact Hx|rewrite Eg'; now left]. }
           unfold st1. cbn [ws_offs ws_batch ws_eos ws_child ws_last ws_fns ws_returned]. rewrite Er.
           split; [reflexivity|]. split; [exact Hf'|]. split; [intros; exact KL|]. split; [reflexivity|]. split; [reflexivity|]. cbn [length]. destruct eos; lia.
      * do 2 eexists. split; [reflexivity|].
        set (st1 := WS rest (r :: q) (ends 0 (runs gs (r :: q))) 0 lastk eos (ws_fns st) (ws_returned st)).
        assert (has_cache st1 = true) as Hc1.
        { unfold has_cache, st1. cbn [ws_next ws_offs]. rewrite ends_length, Er. reflexivity. }
        assert (left_rows st1 = (r :: q) ++ fed rest) as El.
        { unfold left_rows, pending. rewrite Hc1. unfold st1. cbn [ws_next ws_batch ws_eos ws_child skipn]. now rewrite runs_concat, Efr. }
        rewrite El. split; [reflexivity|]. split; [exact Nc|]. split; [exact A|]. split.
        { cbn [app cut]. intros x Hx. destruct (same_group gs x r) eqn:Sx; [|reflexivity]. rewrite Bl. symmetry.
          apply same_group_trans with x; [|exact Sx]. apply A; [rewrite Ecur; apply in_app_iff; right; now left|exact Hx]. }
        unfold st1. cbn [ws_offs ws_batch ws_eos ws_child ws_last ws_fns ws_returned].
        split; [reflexivity|]. split; [exact Hf'|]. split; [intros; exact KL|]. split; [reflexivity|]. split; [reflexivity|]. cbn [length]. destruct eos; lia.
Qed.

(* what is still to be returned *)
Definition limited (st : wstate) (l : list orow) : list orow :=
  match w_limit w with None => l | Some n => firstn (Z.to_nat (n - ws_returned st)) l end.
Definition coming (st : wstate) : list orow := limited st (flat_map ans (runs gs (left_rows st))).
Definition measure (st : wstate) : nat := (if ws_eos st then 0 else length (ws_child st)) + length (left_rows st).

(* the part of the loop that takes a partition *)
Lemma partition_step st : inv st -> has_cache st = true ->
  exists g e st1 cur st2, take_partition (ws_batch st) (ws_offs st) (ws_next st) = Some (g, e) /\
    st1 = WS (ws_child st) (ws_batch st) (ws_offs st) (S (ws_next st)) (ws_last st) (ws_eos st) (ws_fns st) (ws_returned st) /\
    extend gs (ws_child st1) st1 g e = Some (st2, cur) /\
    left_rows st = cur ++ left_rows st2 /\ runs gs (left_rows st) = cur :: runs gs (left_rows st2) /\ cur <> [] /\
    inv st2 /\ ws_fns st2 = ws_fns st /\ ws_returned st2 = ws_returned st /\
    (if ws_eos st2 then 0 else length (ws_child st2)) <= (if ws_eos st then 0 else length (ws_child st)).
Proof.
  intros I0 Hc. destruct I0 as [I1 I2 I3 I4 I5 I6 I7]. specialize (I1 Hc).
  assert (ws_next st < length (runs gs (ws_batch st))) as Ln.
  { unfold has_cache in Hc. apply Nat.ltb_lt in Hc. now rewrite I1, ends_length in Hc. }
  destruct (nth_error (runs gs (ws_batch st)) (ws_next st)) as [g|] eqn:Eg; [|apply nth_error_None in Eg; lia].
  pose proof (take_ok _ _ _ g (runs_concat gs (ws_batch st)) (runs_nonempty gs _) Eg) as Tk. rewrite <- I1 in Tk.
  set (e := length (concat (firstn (S (ws_next st)) (runs gs (ws_batch st))))) in *.
  set (st1 := WS (ws_child st) (ws_batch st) (ws_offs st) (S (ws_next st)) (ws_last st) (ws_eos st) (ws_fns st) (ws_returned st)).
  assert (skipn (ws_next st) (runs gs (ws_batch st)) = g :: skipn (S (ws_next st)) (runs gs (ws_batch st))) as Sk.
  { clear - Eg. revert Eg. generalize (runs gs (ws_batch st)). generalize (ws_next st). induction n as [|n IH]; intros [|x l] E; try discriminate.
    - injection E as ->. reflexivity.
    - cbn [skipn]. rewrite (IH l E). reflexivity. }
  assert (pending st = g ++ concat (skipn (S (ws_next st)) (runs gs (ws_batch st)))) as Ep.
  { unfold pending. rewrite Hc, Sk. reflexivity. }
  assert (allsame gs g /\ cut gs g (concat (skipn (S (ws_next st)) (runs gs (ws_batch st))))) as (Ag & Cg).
  { pose proof (runs_skip (ws_next st) (ws_batch st)) as Rk. rewrite Sk in Rk. cbn [concat] in Rk.
    assert (g <> []) as Ng. { pose proof (runs_nonempty gs (ws_batch st)) as N. rewrite Forall_forall in N. apply N. eapply nth_error_In. exact Eg. }
    destruct (runs_split (g ++ concat (skipn (S (ws_next st)) (runs gs (ws_batch st)))) ltac:(destruct g; [congruence|discriminate]))
      as (g2 & rest2 & E2 & _ & A2 & C2 & R2).
    rewrite R2 in Rk. injection Rk as <- Rk. apply app_inv_head in E2. now rewrite E2. }
  assert (g <> []) as Ng. { pose proof (runs_nonempty gs (ws_batch st)) as N. rewrite Forall_forall in N. apply N. eapply nth_error_In. exact Eg. }
  assert (forall cur st2, left_rows st = cur ++ left_rows st2 -> cur <> [] -> allsame gs cur -> cut gs cur (left_rows st2) ->
    (has_cache st2 = true -> ws_offs st2 = ends 0 (runs gs (ws_batch st2))) -> (ws_eos st2 = false -> feed (ws_child st2)) ->
    (has_cache st2 = true -> ws_eos st2 = false -> key_of_last gs (ws_batch st2) (ws_last st2)) -> ws_fns st2 = ws_fns st ->
    runs gs (left_rows st) = cur :: runs gs (left_rows st2) /\ inv st2) as Fin.
  { intros cur st2 E Nc A C J1 J2 J3 J4.
    assert (runs gs (left_rows st) = cur :: runs gs (left_rows st2)) as Er by (rewrite E; apply runs_cut; assumption).
    split; [exact Er|]. constructor; try assumption.
    - now rewrite J4.
    - rewrite E in I5. now apply Forall_app in I5.
    - rewrite E in I6. apply together_suffix with cur. exact I6.
    - rewrite Er in I7. now inversion I7. }
  destruct (Nat.lt_ge_cases (S (ws_next st)) (length (runs gs (ws_batch st)))) as [L|L].
  - exists g, e, st1, g, st1. split; [exact Tk|]. split; [reflexivity|].
    assert (e < length (ws_batch st)) as Le.
    { pose proof (concat_len_lt (runs gs (ws_batch st)) (ws_next st) (runs_nonempty gs _) L) as K. rewrite runs_concat in K. exact K. }
    rewrite extend_stop. 2:{ unfold st1. cbn [ws_batch]. destruct (Nat.eqb_spec e (length (ws_batch st))); [lia|reflexivity]. }
    split; [reflexivity|].
    assert (has_cache st1 = true) as Hc1.
    { unfold has_cache, st1. cbn [ws_next ws_offs]. rewrite I1, ends_length. now apply Nat.ltb_lt. }
    assert (left_rows st = g ++ left_rows st1) as El.
    { unfold left_rows at 1. rewrite Ep. unfold left_rows, pending. rewrite Hc1. unfold st1. cbn [ws_next ws_batch ws_eos ws_child]. now rewrite <- app_assoc. }
    split; [exact El|].
    assert (cut gs g (left_rows st1)) as C1.
    { unfold left_rows, pending. rewrite Hc1. unfold st1. cbn [ws_next ws_batch ws_eos ws_child].
      destruct (skipn (S (ws_next st)) (runs gs (ws_batch st))) as [|g2 gq] eqn:E2.
      - assert (length (skipn (S (ws_next st)) (runs gs (ws_batch st))) = 0) as K by now rewrite E2. rewrite skipn_length in K. lia.
      - assert (g2 <> []) as N2.
        { pose proof (runs_nonempty gs (ws_batch st)) as N. rewrite Forall_forall in N. apply N.
          rewrite <- (firstn_skipn (S (ws_next st)) (runs gs (ws_batch st))), E2. apply in_app_iff. right. now left. }
        destruct g2 as [|h g2]; [congruence|]. exact Cg. }
    destruct (Fin g st1 El Ng Ag C1) as (F1 & F2); try reflexivity.
    + intros _. exact I1.
    + exact I2.
    + intros _. apply I3. exact Hc.
    + split; [exact F1|]. split; [exact Ng|]. split; [exact F2|]. split; [reflexivity|]. split; [reflexivity|]. reflexivity.
  - assert (S (ws_next st) = length (runs gs (ws_batch st))) as L' by lia.
    assert (e = length (ws_batch st)) as Ee.
    { unfold e. rewrite L', firstn_all, runs_concat. reflexivity. }
    assert (concat (skipn (S (ws_next st)) (runs gs (ws_batch st))) = []) as Es.
    { rewrite skipn_all2 by lia. reflexivity. }
    rewrite Es, app_nil_r in Ep.
    assert (exists a r0, g = a ++ [r0] /\ (ws_eos st = false -> gs = [] \/ ws_last st = group_key gs r0)) as (a & r0 & Ea & K0).
    { destruct g as [|x g']; [congruence|]. destruct (last_snoc x g') as (a & Ea). exists a, (last g' x). split; [exact Ea|].
      intros Eo. destruct (I3 Hc Eo) as [K|(a3 & r3 & E3 & K3)]; [now left|right].
      assert (exists pre, ws_batch st = pre ++ (x :: g')) as (pre & Epre).
      { exists (concat (firstn (ws_next st) (runs gs (ws_batch st)))). rewrite <- (runs_concat gs (ws_batch st)) at 1.
        rewrite <- (firstn_skipn (ws_next st) (runs gs (ws_batch st))) at 1. rewrite concat_app, Sk. cbn [concat]. rewrite Es, app_nil_r. reflexivity. }
      rewrite Epre, Ea, app_assoc in E3. apply app_inj_tail in E3. destruct E3 as (_ & <-). exact K3. }
    assert (has_cache st1 = false) as Hc1.
    { unfold has_cache, st1. cbn [ws_next ws_offs]. rewrite I1, ends_length. apply Nat.ltb_ge. lia. }
    assert (left_rows st = g ++ (if ws_eos st1 then [] else fed (ws_child st1))) as El by (unfold left_rows; rewrite Ep; reflexivity).
    destruct (ws_eos st) eqn:Eo.
    + exists g, e, st1, g, st1. split; [exact Tk|]. split; [reflexivity|].
      rewrite extend_stop by (unfold st1; cbn [ws_eos]; apply andb_false_r). split; [reflexivity|].
      assert (left_rows st1 = []) as E1. { unfold left_rows, pending. rewrite Hc1. unfold st1. reflexivity. }
      assert (left_rows st = g ++ left_rows st1) as El1 by (rewrite E1, El; unfold st1; reflexivity).
      split; [exact El1|].
      destruct (Fin g st1 El1 Ng Ag) as (F1 & F2); try reflexivity; try congruence.
      { intros X. unfold st1 in X. cbn in X. discriminate. }
      split; [exact F1|]. split; [exact Ng|]. split; [exact F2|]. split; [reflexivity|]. split; [reflexivity|]. reflexivity.
    + destruct (extend_ok (ws_child st1) st1 g a r0) as (st2 & cur & X1 & X2 & X3 & X4 & X5 & X6 & X7 & X8 & X9 & X10 & X11); try assumption.
      * reflexivity.
      * exact (K0 eq_refl).
      * rewrite El in I5. now apply Forall_app in I5.
      * rewrite El in I5. now apply Forall_app in I5.
      * rewrite El in I6. exact I6.
      * exists g, e, st1, cur, st2. split; [exact Tk|]. split; [reflexivity|]. split; [rewrite Ee; exact X1|].
        assert (left_rows st = cur ++ left_rows st2) as El2 by (rewrite X2; exact El).
        split; [exact El2|]. destruct (Fin cur st2 El2 X3 X4 X5 X6 X7 X8 X9) as (F1 & F2).
        split; [exact F1|]. split; [exact X3|]. split; [exact F2|]. split; [exact X9|]. split; [exact X10|]. exact X11.
Qed.

Lemma limited_step st st' o rest k : k = room w st (length o) -> ws_returned st' = (ws_returned st + Z.of_nat k)%Z -> reached_limit w st = false ->
  limited st (o ++ rest) = firstn k o ++ (if reached_limit w st' then [] else limited st' rest).
Proof.
  unfold limited, room, reached_limit. intros Ek Er Nr. destruct (w_limit w) as [n|].
  - apply Z.leb_gt in Nr. rewrite firstn_app. subst k. f_equal.
    + destruct (Nat.min_spec (length o) (Z.to_nat (n - ws_returned st))) as [(A & ->)|(A & ->)]; [|reflexivity].
      rewrite firstn_all2 by lia. now rewrite firstn_all.
    + rewrite Er. destruct (Z.leb_spec n (ws_returned st + Z.of_nat (Nat.min (length o) (Z.to_nat (n - ws_returned st))))) as [L|L].
      * replace (Z.to_nat (n - ws_returned st) - length o) with 0 by lia. reflexivity.
      * f_equal. lia.
  - subst k. now rewrite firstn_all.
Qed.
Lemma limited_done st l : reached_limit w st = true -> limited st l = [].
Proof.
  unfold limited, reached_limit. destruct (w_limit w) as [n|]; [|discriminate]. intros K. apply Z.leb_le in K.
  replace (Z.to_nat (n - ws_returned st)) with 0 by lia. reflexivity.
Qed.

Lemma get_next_ok cap fuel : forall st out, inv st -> measure st < fuel ->
  exists d eos st', get_next fuel w cap st out = Some (out ++ d, eos, st') /\ coming st = d ++ (if eos then [] else coming st') /\
    (eos = false -> inv st' /\ cap <= length (out ++ d)).
Proof.
  induction fuel as [|fuel IH]; intros st out I0 Mu; [lia|]. cbn [get_next].
  destruct (reached_limit w st) eqn:Rl.
  { exists [], true, st. rewrite app_nil_r. split; [reflexivity|]. split; [|discriminate]. apply (limited_done st _ Rl). }
  destruct (Nat.leb_spec cap (length out)) as [Lc|Lc].
  { exists [], false, st. rewrite app_nil_r. split; [reflexivity|]. split; [reflexivity|]. auto. }
  destruct (ws_eos st && negb (has_cache st)) eqn:Ed.
  { apply andb_true_iff in Ed. destruct Ed as (Ed1 & Ed2). apply negb_true_iff in Ed2.
    exists [], true, st. rewrite app_nil_r. split; [reflexivity|]. split; [|discriminate].
    unfold coming, left_rows, pending. rewrite Ed1, Ed2. cbn. unfold limited. destruct (w_limit w); [now rewrite firstn_nil|reflexivity]. }
  cbv zeta.
  (* a state with a partition to take *)
  assert (forall st, inv st -> has_cache st = true -> reached_limit w st = false -> measure st <= fuel ->
    exists d eos st',
      match take_partition (ws_batch st) (ws_offs st) (ws_next st) with
      | None => None
      | Some (cur, e) =>
          match extend gs (ws_child (WS (ws_child st) (ws_batch st) (ws_offs st) (S (ws_next st)) (ws_last st) (ws_eos st) (ws_fns st) (ws_returned st)))
                  (WS (ws_child st) (ws_batch st) (ws_offs st) (S (ws_next st)) (ws_last st) (ws_eos st) (ws_fns st) (ws_returned st)) cur e with
          | None => None
          | Some (st, cur) =>
              match process_one_partition (w_keys w) (w_mode w) (w_fns w) (ws_fns st) cur with
              | None => None
              | Some (is, rs) =>
                  if reached_limit w (WS (ws_child st) (ws_batch st) (ws_offs st) (ws_next st) (ws_last st) (ws_eos st) is (ws_returned st + Z.of_nat (room w st (length rs)))%Z)
                  then Some (out ++ firstn (room w st (length rs)) rs, true, WS (ws_child st) (ws_batch st) (ws_offs st) (ws_next st) (ws_last st) (ws_eos st) is (ws_returned st + Z.of_nat (room w st (length rs)))%Z)
                  else get_next fuel w cap (WS (ws_child st) (ws_batch st) (ws_offs st) (ws_next st) (ws_last st) (ws_eos st) is (ws_returned st + Z.of_nat (room w st (length rs)))%Z) (out ++ firstn (room w st (length rs)) rs)
              end
          end
      end = Some (out ++ d, eos, st') /\ coming st = d ++ (if eos then [] else coming st') /\
      (eos = false -> inv st' /\ cap <= length (out ++ d))) as Step.
  { clear st I0 Mu Rl Ed. intros st I0 Hc Rl Mu.
    destruct (partition_step st I0 Hc) as (g & e & st1 & cur & st2 & Tk & E1 & Ex & El & Er & Nc & I2 & F2 & R2 & M2).
    rewrite Tk. subst st1. rewrite Ex.
    pose proof (inv_good _ I0) as Gd. rewrite Er in Gd. inversion Gd as [|? ? Gcur Grest]; subst.
    destruct (Hproc cur Gcur (ws_fns st2) (inv_fns _ I2)) as (is & -> & Sh).
    set (k := room w st2 (length (ans cur))). set (st3 := WS _ _ _ _ _ _ is _).
    assert (inv st3) as I3.
    { destruct I2 as [J1 J2 J3 J4 J5 J6 J7]. constructor; try assumption. }
    assert (coming st = firstn k (ans cur) ++ (if reached_limit w st3 then [] else coming st3)) as Cm.
    { unfold coming at 1. rewrite Er. cbn [flat_map].
      assert (limited st (ans cur ++ flat_map ans (runs gs (left_rows st2))) = limited st2 (ans cur ++ flat_map ans (runs gs (left_rows st2)))) as ->
        by (unfold limited; now rewrite R2).
      apply (limited_step st2 st3); [reflexivity|reflexivity|]. unfold reached_limit in *. now rewrite R2. }
    destruct (reached_limit w st3) eqn:Rl3.
    - exists (firstn k (ans cur)), true, st3. split; [reflexivity|]. split; [exact Cm|discriminate].
    - assert (measure st3 < fuel) as Mu3.
      { unfold measure in *. change (ws_eos st3) with (ws_eos st2). change (ws_child st3) with (ws_child st2). change (left_rows st3) with (left_rows st2).
        rewrite El, app_length in Mu. destruct cur; [congruence|]. cbn [length] in Mu. lia. }
      destruct (IH st3 (out ++ firstn k (ans cur)) I3 Mu3) as (d & eos & st' & G & C' & J).
      exists (firstn k (ans cur) ++ d), eos, st'. rewrite app_assoc. split; [exact G|]. split; [rewrite Cm, C', app_assoc; reflexivity|exact J]. }
  destruct (has_cache st) eqn:Hc.
  - apply (Step st I0 Hc Rl). lia.
  - cbn [negb] in Ed. rewrite andb_true_r in Ed.
    destruct I0 as [I1 I2 I3 I4 I5 I6 I7]. pose proof (I2 Ed) as Fd.
    destruct (ws_child st) as [|(b, eos) rest] eqn:Ec; [inversion Fd|].
    assert (left_rows st = b ++ fed rest) as El by (unfold left_rows, pending; rewrite Hc, Ed, Ec; reflexivity).
    assert (eos = false -> feed rest) as Hf' by (intros ->; inversion Fd; assumption).
    assert ((if eos then [] else fed rest) = fed rest) as Efr.
    { destruct eos; [inversion Fd; reflexivity|reflexivity]. }
    destruct b as [|r q].
    + set (st1 := WS rest [] (ws_offs st) (ws_next st) (ws_last st) eos (ws_fns st) (ws_returned st)).
      assert (has_cache st1 = false) as Hc1 by exact Hc.
      assert (left_rows st1 = left_rows st) as El1 by (rewrite El; unfold left_rows, pending; rewrite Hc1; unfold st1; cbn [ws_eos ws_child app]; exact Efr).
      assert (coming st = coming st1) as ->. { unfold coming. rewrite El1. reflexivity. }
      apply (IH st1 out).
      * constructor; rewrite ?El1; try assumption; try congruence.
      * unfold measure in *. rewrite El1. rewrite Ed, Ec in Mu. unfold st1. cbn [ws_eos ws_child]. cbn [length] in Mu. destruct eos; lia.
    + rewrite El in I5, I6.
      destruct (split_ok gs (ws_last st) r q ltac:(now apply Forall_app in I5) ltac:(apply together_prefix with (fed rest); exact I6)) as (lastk & bl & -> & KL & _).
      set (st1 := WS rest (r :: q) (ends 0 (runs gs (r :: q))) 0 lastk eos (ws_fns st) (ws_returned st)).
      assert (has_cache st1 = true) as Hc1.
      { unfold has_cache, st1. cbn [ws_next ws_offs]. rewrite ends_length.
        destruct (runs_split (r :: q) ltac:(discriminate)) as (? & ? & _ & _ & _ & _ & ->). reflexivity. }
      assert (left_rows st1 = left_rows st) as El1.
      { rewrite El. unfold left_rows, pending. rewrite Hc1. unfold st1. cbn [ws_next ws_batch ws_eos ws_child skipn]. now rewrite runs_concat, Efr. }
      assert (coming st = coming st1) as ->. { unfold coming. rewrite El1. reflexivity. }
      apply (Step st1).
      * constructor; rewrite ?El1, ?El; try assumption; try (rewrite <- El; assumption).
        -- reflexivity.
        -- intros _ _. exact KL.
      * exact Hc1.
      * exact Rl.
      * unfold measure in *. rewrite El1. rewrite Ed, Ec in Mu. unfold st1. cbn [ws_eos ws_child]. cbn [length] in Mu. destruct eos; lia.
Qed.

Lemma measure_to_come st : measure st < to_come st.
Proof.
  unfold measure, to_come, left_rows, pending. rewrite app_length.
  assert (length (concat (skipn (ws_next st) (runs gs (ws_batch st)))) <= length (ws_batch st)) as K.
  { rewrite <- (runs_concat gs (ws_batch st)) at 2. rewrite <- (firstn_skipn (ws_next st) (runs gs (ws_batch st))) at 2. rewrite concat_app, app_length. lia. }
  unfold fed. destruct (has_cache st), (ws_eos st); cbn [length]; lia.
Qed.

Lemma drain_ok caps : forall st out, inv st ->
  exists d fin, drain w caps st out = Some (out ++ d, fin) /\
    (if fin then coming st = d else exists more, coming st = d ++ more) /\
    (Forall (fun c => 0 < c) caps -> length (coming st) < length caps -> fin = true).
Proof.
  induction caps as [|c caps IH]; intros st out I0; cbn [drain].
  - exists [], false. rewrite app_nil_r. split; [reflexivity|]. split; [exists (coming st); reflexivity|]. cbn [length]. lia.
  - destruct (get_next_ok c (to_come st) st [] I0 (measure_to_come st)) as (d & eos & st' & -> & Cm & J). cbn [app].
    destruct eos.
    + exists d, true. split; [reflexivity|]. split; [now rewrite Cm, app_nil_r|reflexivity].
    + destruct (J eq_refl) as (I1 & Lc). cbn [app] in Lc.
      destruct (IH st' (out ++ d) I1) as (d' & fin & -> & K1 & K2). exists (d ++ d'), fin. rewrite app_assoc. split; [reflexivity|]. split.
      * destruct fin; [now rewrite Cm, K1|]. destruct K1 as (more & K1). exists more. now rewrite Cm, K1, app_assoc.
      * intros Fc Ll. inversion Fc; subst. apply K2; [assumption|]. rewrite Cm, app_length in Ll. cbn [length] in Ll. lia.
Qed.
End Loop.
