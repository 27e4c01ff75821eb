(* The matcher computes the matching relation. *)
From Verif.Common Require Import Bytes.
From Verif.Like Require Import Model Spec.
Local Open Scope Z_scope.

Lemma beq_eq a b : beq a b = true <-> a = b.
Proof.
  revert b; induction a as [|x a IH]; intros [|y b]; cbn [beq]; split; try congruence; try discriminate; intros H.
  - apply andb_true_iff in H as [H1 H2]. apply Z.eqb_eq in H1. apply IH in H2. congruence.
  - injection H as -> ->. rewrite Z.eqb_refl. apply IH. reflexivity.
Qed.
Lemma beq_spec a b : reflect (a = b) (beq a b).
Proof. destruct (beq a b) eqn:E; constructor; [apply beq_eq; auto|]. intros H. apply beq_eq in H. congruence. Qed.

(* ---- character sets ---- *)
Lemma next_prefix cs s : exists r, s = next_code_point cs s ++ r.
Proof.
  destruct cs; cbn [next_code_point].
  - destruct s as [|b s]; cbn; [exists []; auto|exists s; auto].
  - unfold utf8_next. destruct s as [|b s]; [exists []; auto|].
    destruct (_ =? 0); [exists s; auto|].
    destruct (_ =? 0xC0); [destruct (_ =? 2)%nat; [exists (skipn 2 (b :: s)); symmetry; apply firstn_skipn|exists (b :: s); auto]|].
    destruct (_ =? 0xE0); [destruct (_ =? 3)%nat; [exists (skipn 3 (b :: s)); symmetry; apply firstn_skipn|exists (b :: s); auto]|].
    destruct (_ =? 0xF0); [destruct (_ =? 4)%nat; [exists (skipn 4 (b :: s)); symmetry; apply firstn_skipn|exists (b :: s); auto]|].
    exists (b :: s); auto.
  - unfold gbk_next. destruct s as [|b s]; [exists []; auto|].
    destruct (_ =? 0); [exists s; auto|]. destruct s as [|c s]; [exists [b]; auto|].
    destruct (_ && _); [exists s; auto|exists (b :: c :: s); auto].
Qed.
Lemma next_nil cs : next_code_point cs [] = [].
Proof. destruct cs; reflexivity. Qed.
Lemma skip_next cs s : s = next_code_point cs s ++ skipn (length (next_code_point cs s)) s.
Proof.
  destruct (next_prefix cs s) as [r E]. set (c := next_code_point cs s) in *. clearbody c. subst s. rewrite skipn_app, skipn_all, Nat.sub_diag. reflexivity.
Qed.
Lemma next_len cs s : (length (next_code_point cs s) <= length s)%nat.
Proof. destruct (next_prefix cs s) as [r E]. rewrite E at 2. rewrite app_length. lia. Qed.
Lemma offset_bound cs s : s <> [] -> (1 <= offset cs s <= length s)%nat.
Proof.
  intros H. unfold offset. pose proof (next_len cs s). destruct (next_code_point cs s) eqn:E.
  - destruct s; [congruence|cbn; lia].
  - cbn [length] in *. lia.
Qed.
Lemma offset_next cs s : next_code_point cs s <> [] -> offset cs s = length (next_code_point cs s).
Proof. unfold offset. destruct (next_code_point cs s); congruence. Qed.

(* a string read character by character, an ill-formed byte standing for itself *)
Fixpoint units_f (n : nat) (cs : charset) (s : list Z) : list (list Z) :=
  match n, s with
  | O, _ | _, [] => []
  | S n', _ => firstn (offset cs s) s :: units_f n' cs (skipn (offset cs s) s)
  end.
Definition units cs s := units_f (length s) cs s.
Lemma units_f_more cs : forall n m s, (length s <= n)%nat -> (length s <= m)%nat -> units_f n cs s = units_f m cs s.
Proof.
  induction n as [|n IH]; intros m s Hn Hm.
  - destruct s; [|cbn in Hn; lia]. destruct m; reflexivity.
  - destruct s as [|b s]; [destruct m; reflexivity|]. destruct m as [|m]; [cbn in Hm; lia|].
    pose proof (offset_bound cs (b :: s) ltac:(congruence)).
    cbn [units_f]. f_equal. apply IH; rewrite skipn_length; cbn [length] in *; lia.
Qed.
Lemma units_nil cs : units cs [] = [].
Proof. reflexivity. Qed.
Lemma units_cons cs s : s <> [] -> units cs s = firstn (offset cs s) s :: units cs (skipn (offset cs s) s).
Proof.
  intros H. unfold units at 1. destruct s as [|b s]; [congruence|]. cbn [length units_f]. f_equal.
  pose proof (offset_bound cs (b :: s) ltac:(congruence)).
  apply units_f_more; rewrite skipn_length; cbn [length] in *; lia.
Qed.
Lemma units_next cs s : next_code_point cs s <> [] ->
  units cs s = next_code_point cs s :: units cs (skipn (length (next_code_point cs s)) s).
Proof.
  intros H. assert (s <> []) by (intros ->; rewrite next_nil in H; congruence).
  rewrite units_cons by auto. rewrite offset_next by auto. f_equal.
  rewrite (skip_next cs s) at 2. rewrite firstn_app, firstn_all, Nat.sub_diag. cbn. apply app_nil_r.
Qed.
Lemma units_concat cs s : concat (units cs s) = s.
Proof.
  remember (length s) as n eqn:E. revert s E. induction n as [n IH] using lt_wf_ind. intros s E.
  destruct s as [|b s]; [reflexivity|]. rewrite units_cons by congruence. cbn [concat].
  pose proof (offset_bound cs (b :: s) ltac:(congruence)).
  rewrite (IH (length (skipn (offset cs (b :: s)) (b :: s)))); [apply firstn_skipn| |auto].
  rewrite skipn_length. subst n. cbn [length] in *. lia.
Qed.
Lemma units_empty cs s : units cs s = [] -> s = [].
Proof. intros H. rewrite <- (units_concat cs s), H. reflexivity. Qed.

(* ---- patterns ---- *)
Lemma items_other c r : c <> [37] -> c <> [95] -> c <> [92] -> items (c :: r) = Lit c :: items r.
Proof.
  intros A B C. cbn [items]. destruct c as [|a [|a' c]]; try reflexivity;
  (destruct a as [|p|p]; try reflexivity; repeat (destruct p as [p|p|]; try reflexivity); congruence).
Qed.

(* ---- matching ---- *)
Lemma match_nil_l cs : matches [] cs <-> cs = [].
Proof. split; [intros H; inversion H; auto|intros ->; constructor]. Qed.
Lemma match_lit c ps cs : matches (Lit c :: ps) cs <-> exists r, cs = c :: r /\ matches ps r.
Proof. split; [intros H; inversion H; subst; eauto|intros (r & -> & H); constructor; auto]. Qed.
Lemma match_one ps cs : matches (AnyOne :: ps) cs <-> exists c r, cs = c :: r /\ matches ps r.
Proof. split; [intros H; inversion H; subst; eauto|intros (c & r & -> & H); constructor; auto]. Qed.
Lemma match_seq ps cs : matches (AnySeq :: ps) cs <-> exists k r, cs = k ++ r /\ matches ps r.
Proof. split; [intros H; inversion H; subst; eauto|intros (c & r & -> & H); constructor; auto]. Qed.
Lemma match_seq_step ps c cs : matches (AnySeq :: ps) (c :: cs) <-> matches ps (c :: cs) \/ matches (AnySeq :: ps) cs.
Proof.
  rewrite match_seq. split.
  - intros ([|x k] & r & E & H); cbn in E.
    + left. subst. auto.
    + right. injection E as -> ->. apply match_seq; eauto.
  - intros [H|H]; [exists [], (c :: cs); auto|]. apply match_seq in H as (k & r & -> & H). exists (c :: k), r. auto.
Qed.
Lemma match_seq_nil ps : matches (AnySeq :: ps) [] <-> matches ps [].
Proof.
  rewrite match_seq. split; [intros (k & r & E & H)|intros H; exists [], []; auto].
  symmetry in E. apply app_eq_nil in E as [-> ->]. auto.
Qed.
Lemma match_seq_absorb ps k cs : matches (AnySeq :: ps) cs -> matches (AnySeq :: ps) (k ++ cs).
Proof. rewrite !match_seq. intros (k' & r & -> & H). exists (k ++ k'), r. rewrite app_assoc. auto. Qed.

Definition single (i : item) : Prop := i <> AnySeq.
Lemma match_singles w ps cs : Forall single w -> matches (w ++ ps) cs ->
  exists k r, cs = k ++ r /\ length k = length w /\ matches ps r.
Proof.
  revert cs; induction w as [|i w IH]; cbn [app]; intros cs F M; [exists [], cs; auto|].
  inversion F as [|? ? Hi Fw]; subst. destruct i as [| |x].
  - congruence.
  - apply match_one in M as (c & r0 & -> & M). destruct (IH r0 Fw M) as (k & r & -> & L & M'). exists (c :: k), r. cbn; auto.
  - apply match_lit in M as (r0 & -> & M). destruct (IH r0 Fw M) as (k & r & -> & L & M'). exists (x :: k), r. cbn; auto.
Qed.
(* a later start of "% w % ps" gives nothing that "% ps" at the current place does not *)
Lemma discard w ps pre rest : Forall single w -> length pre = length w ->
  matches (AnySeq :: w ++ AnySeq :: ps) (tl (pre ++ rest)) -> matches (AnySeq :: ps) rest.
Proof.
  intros F L M. apply match_seq in M as (k & r & E & M).
  destruct (match_singles _ _ _ F M) as (k' & r' & -> & L' & M').
  assert (S : exists j, rest = j ++ r').
  { exists (skipn (length pre) (match pre ++ rest with [] => [] | c :: _ => [c] end ++ k ++ k')).
    assert (E2 : pre ++ rest = (match pre ++ rest with [] => [] | c :: _ => [c] end ++ k ++ k') ++ r' \/ pre ++ rest = []).
    { destruct (pre ++ rest) as [|c x] eqn:Q; [right; auto|left]. cbn [tl] in E. subst x. rewrite <- !app_assoc. reflexivity. }
    destruct E2 as [E2|E2].
    - set (h := match pre ++ rest with [] => [] | c :: _ => [c] end ++ k ++ k') in *.
      assert (Hh : (length pre <= length h)%nat).
      { unfold h. rewrite !app_length, L', L. lia. }
      pose proof (f_equal (skipn (length pre)) E2) as E3. rewrite !skipn_app, skipn_all, Nat.sub_diag in E3.
      cbn [app skipn] in E3. rewrite E3. f_equal. replace (length pre - length h)%nat with O by lia. reflexivity.
    - rewrite E2. apply app_eq_nil in E2 as [-> ->]. cbn in E. symmetry in E. apply app_eq_nil in E as [-> E].
      apply app_eq_nil in E as [-> ->]. reflexivity. }
  destruct S as (j & ->). apply match_seq_absorb. auto.
Qed.

(* ---- the loop ---- *)
Section Loop.
Variable cs : charset.
Notation U := (units cs).
Notation It s := (items (units cs s)).

Definition other (resume : option (list Z * list Z)) : Prop :=
  match resume with Some (nt, np) => matches (It np) (U nt) | None => False end.
Definition inv (t p : list Z) (resume : option (list Z * list Z)) : Prop :=
  match resume with
  | None => True
  | Some (nt, np) => exists u w pre,
      u <> [] /\ nt = skipn (offset cs u) u /\ next_code_point cs np = percent /\
      (length p < length np)%nat /\ Forall single w /\
      It np = AnySeq :: w ++ It p /\ U u = pre ++ U t /\ length pre = length w
  end.
Definition need (t p : list Z) (resume : option (list Z * list Z)) : nat :=
  (length p + 1 + match resume with
                  | None => length t * (length p + 2)
                  | Some (nt, np) => (length nt + 1) * (length np + 2)
                  end)%nat.

Lemma other_tl nt u : u <> [] -> nt = skipn (offset cs u) u -> U nt = tl (U u).
Proof. intros H ->. rewrite (units_cons cs u) by auto. reflexivity. Qed.

Lemma step_single t p resume i p' n :
  (forall t p r, inv t p r -> (need t p r <= n)%nat -> exists a, like_loop n cs t p r = a /\ a <> AFuel /\
     forall b, a = ABool b -> (b = true <-> matches (It p) (U t) \/ other r)) ->
  inv t p resume -> (need t p resume <= S n)%nat -> t <> [] ->
  It p = i :: It p' -> single i -> (length p' < length p)%nat ->
  like_turn cs t p resume = TGo (skipn (offset cs t) t) p' resume ->
  (forall ps, matches (i :: ps) (U t) <-> matches ps (U (skipn (offset cs t) t))) ->
  exists a, like_loop (S n) cs t p resume = a /\ a <> AFuel /\
    forall b, a = ABool b -> (b = true <-> matches (It p) (U t) \/ other resume).
Proof.
  intros IH Hi Hn Ht EI Hs Hl ET HM. cbn [like_loop]. rewrite ET.
  pose proof (offset_bound cs t Ht).
  destruct (IH (skipn (offset cs t) t) p' resume) as (a & E & NF & K).
  - destruct resume as [[nt np]|]; [|exact I]. destruct Hi as (u & w & pre & A & B & C & D & F & G & H' & L).
    exists u, (w ++ [i]), (pre ++ [firstn (offset cs t) t]).
    split; [auto|]. split; [auto|]. split; [auto|]. split; [lia|]. split; [apply Forall_app; auto|].
    split; [rewrite G, EI, <- app_assoc; reflexivity|].
    split; [rewrite H', (units_cons cs t) by auto; rewrite <- app_assoc; reflexivity|].
    rewrite !app_length, L. reflexivity.
  - destruct resume as [[nt np]|]; unfold need in *; [lia|]. rewrite skipn_length. nia.
  - exists a. split; [auto|]. split; [auto|]. intros b Hb. rewrite (K b Hb). rewrite EI, HM. reflexivity.
Qed.

Lemma step_percent t p resume n :
  (forall t p r, inv t p r -> (need t p r <= n)%nat -> exists a, like_loop n cs t p r = a /\ a <> AFuel /\
     forall b, a = ABool b -> (b = true <-> matches (It p) (U t) \/ other r)) ->
  next_code_point cs p = percent ->
  (length p + match t with [] => 0 | _ => (length (skipn (offset cs t) t) + 1) * (length p + 2) end <= n)%nat ->
  exists a, like_loop (S n) cs t p resume = a /\ a <> AFuel /\
    forall b, a = ABool b -> (b = true <-> matches (It p) (U t)).
Proof.
  intros IH Hp Hn.
  assert (P0 : p <> []) by (intros ->; rewrite next_nil in Hp; discriminate).
  assert (EU : U p = percent :: U (skipn 1 p)) by (rewrite units_next by (rewrite Hp; discriminate); rewrite Hp; reflexivity).
  assert (EI : It p = AnySeq :: It (skipn 1 p)) by (rewrite EU; reflexivity).
  assert (LP : (length p = S (length (skipn 1 p)))%nat) by (destruct p; [congruence|cbn [skipn length]; reflexivity]).
  assert (ET : like_turn cs t p resume = TGo t (skipn 1 p) (match t with [] => None | _ => Some (skipn (offset cs t) t, p) end)).
  { unfold like_turn. destruct p as [|b0 p0]; [congruence|]. rewrite Hp. destruct t; reflexivity. }
  cbn [like_loop]. rewrite ET. destruct t as [|x t].
  - destruct (IH [] (skipn 1 p) None) as (a & E & NF & K); [exact I|unfold need; cbn [length]; lia|].
    exists a. split; [auto|]. split; [auto|]. intros b Hb. rewrite (K b Hb). cbn [other]. rewrite EI. change (U []) with (@nil (list Z)).
    rewrite match_seq_nil. tauto.
  - set (t' := x :: t) in *. assert (T0 : t' <> []) by discriminate.
    destruct (IH t' (skipn 1 p) (Some (skipn (offset cs t') t', p))) as (a & E & NF & K).
    + cbn [inv]. exists t', [], []. split; [auto|]. split; [auto|]. split; [auto|]. split; [lia|]. split; [constructor|].
      split; [exact EI|]. split; reflexivity.
    + unfold need. lia.
    + exists a. split; [auto|]. split; [auto|]. intros b Hb. rewrite (K b Hb). cbn [other].
      rewrite EI. rewrite (units_cons cs t') by auto. rewrite match_seq_step. reflexivity.
Qed.

Lemma step_fail t p resume n :
  (forall m t p r, (m <= n)%nat -> inv t p r -> (need t p r <= m)%nat -> exists a, like_loop m cs t p r = a /\ a <> AFuel /\
     forall b, a = ABool b -> (b = true <-> matches (It p) (U t) \/ other r)) ->
  inv t p resume -> (need t p resume <= S n)%nat ->
  ~ matches (It p) (U t) ->
  like_turn cs t p resume = give_up resume ->
  exists a, like_loop (S n) cs t p resume = a /\ a <> AFuel /\
    forall b, a = ABool b -> (b = true <-> matches (It p) (U t) \/ other resume).
Proof.
  intros IH Hi Hn NM ET. cbn [like_loop]. rewrite ET. destruct resume as [[nt np]|]; cbn [give_up].
  - destruct Hi as (u & w & pre & A & B & C & D & F & G & H' & L). unfold need in Hn.
    destruct n as [|n]; [exfalso; nia|].
    destruct (step_percent nt np (Some (nt, np)) n) as (a & E & NF & K).
    + intros t0 p0 r0 Hi0 Hn0. apply (IH n); auto; lia.
    + auto.
    + destruct nt as [|y nt]; [cbn [length] in Hn; lia|]. rewrite skipn_length.
      pose proof (offset_bound cs (y :: nt) ltac:(discriminate)). set (k := length (y :: nt)) in *. nia.
    + exists a. split; [auto|]. split; [auto|]. intros b Hb. rewrite (K b Hb). cbn [other]. tauto.
  - eexists. split; [reflexivity|]. split; [discriminate|]. intros b [= <-]. cbn [other]. split; [discriminate|tauto].
Qed.

Lemma loop_ok : forall n t p resume, inv t p resume -> (need t p resume <= n)%nat ->
  exists a, like_loop n cs t p resume = a /\ a <> AFuel /\
    forall b, a = ABool b -> (b = true <-> matches (It p) (U t) \/ other resume).
Proof.
  induction n as [n IHn] using lt_wf_ind. intros t p resume Hi Hn.
  destruct n as [|n]; [unfold need in Hn; lia|].
  assert (IH : forall t p r, inv t p r -> (need t p r <= n)%nat -> exists a, like_loop n cs t p r = a /\ a <> AFuel /\
     forall b, a = ABool b -> (b = true <-> matches (It p) (U t) \/ other r)) by (intros; apply IHn; auto).
  assert (IH' : forall m t p r, (m <= n)%nat -> inv t p r -> (need t p r <= m)%nat -> exists a, like_loop m cs t p r = a /\ a <> AFuel /\
     forall b, a = ABool b -> (b = true <-> matches (It p) (U t) \/ other r)) by (intros; apply IHn; auto; lia).
  destruct p as [|b0 p0] eqn:EP.
  { destruct t as [|x t].
    - cbn [like_loop like_turn]. eexists. split; [reflexivity|]. split; [discriminate|]. intros b [= <-].
      split; [intros _; left; constructor|auto].
    - apply step_fail; auto. change (It []) with (@nil item). rewrite match_nil_l. intros Q. apply units_empty in Q. discriminate. }
  rewrite <- EP in *. assert (P0 : p <> []) by (subst; discriminate).
  assert (LT : forall z, like_turn cs t p resume = z <->
     (let pp := next_code_point cs p in
      if beq pp [] then TNone
      else if beq pp under_score then
        match t with [] => give_up resume | _ => TGo (skipn (offset cs t) t) (skipn 1 p) resume end
      else if beq pp percent then TGo t (skipn 1 p) (match t with [] => None | _ => Some (skipn (offset cs t) t, p) end)
      else
        let p' := if beq pp escape && (1 <? length p)%nat then skipn 1 p else p in
        let pp' := next_code_point cs p' in
        if beq pp' [] then TNone
        else match t with
             | [] => give_up resume
             | _ =>
                 let tp := next_code_point cs t in
                 if beq tp [] then TNone
                 else if beq pp' tp then TGo (skipn (length tp) t) (skipn (length pp') p') resume
                 else give_up resume
             end) = z).
  { intros z. unfold like_turn. rewrite EP. destruct t; reflexivity. }
  cbv zeta in LT.
  destruct (beq_spec (next_code_point cs p) []) as [E0|E0].
  { cbn [like_loop]. rewrite (proj2 (LT TNone) eq_refl). eexists. split; [reflexivity|]. split; discriminate. }
  destruct (beq_spec (next_code_point cs p) under_score) as [E1|E1].
  { assert (EU : U p = under_score :: U (skipn 1 p)) by (rewrite units_next by auto; rewrite E1; reflexivity).
    assert (EI : It p = AnyOne :: It (skipn 1 p)) by (rewrite EU; reflexivity).
    destruct t as [|x t].
    - apply step_fail; auto; [|apply LT; reflexivity]. rewrite EI. intros M. inversion M.
    - apply (step_single (x :: t) p resume AnyOne (skipn 1 p)); auto; try discriminate.
      + rewrite EP. cbn [skipn length]. lia.
      + apply LT. reflexivity.
      + intros ps. rewrite (units_cons cs (x :: t)) by discriminate. rewrite match_one. split; [intros (c & r & Q & M); assert (r = U (skipn (offset cs (x :: t)) (x :: t))) by congruence; subst r; auto|eauto]. }
  destruct (beq_spec (next_code_point cs p) percent) as [E2|E2].
  { destruct (step_percent t p resume n IH E2) as (a & E & NF & K).
    - unfold need in Hn. destruct t as [|x t]; [lia|].
      pose proof (offset_bound cs (x :: t) ltac:(discriminate)). rewrite skipn_length. set (k := length (x :: t)) in *.
      destruct resume as [[nt np]|]; [|nia].
      destruct Hi as (u & w & pre & A & B & C & D & F & G & H' & L).
      assert (Hk : (k - offset cs (x :: t) <= length nt)%nat).
      { assert (Eu : u = concat pre ++ x :: t) by (rewrite <- (units_concat cs u), H', concat_app, units_concat; reflexivity).
        assert (Et : nt = concat (tl (U u))) by (rewrite <- (other_tl nt u) by auto; symmetry; apply units_concat).
        rewrite Et, H'. destruct pre as [|q pre]; cbn [app tl].
        - rewrite (units_cons cs (x :: t)) by discriminate. cbn [tl]. rewrite units_concat, skipn_length. fold k. lia.
        - rewrite concat_app, units_concat, app_length. fold k. lia. }
      nia.
    - exists a. split; [auto|]. split; [auto|]. intros b Hb. rewrite (K b Hb).
      split; [auto|]. intros [M|M]; [auto|]. destruct resume as [[nt np]|]; [|destruct M]. cbn [other] in M.
      destruct Hi as (u & w & pre & A & B & C & D & F & G & H' & L).
      assert (EU : U p = percent :: U (skipn 1 p)) by (rewrite units_next by auto; rewrite E2; reflexivity).
      assert (EI : It p = AnySeq :: It (skipn 1 p)) by (rewrite EU; reflexivity).
      rewrite EI in *. rewrite G in M. rewrite (other_tl nt u) in M by auto. rewrite H' in M. apply discard in M; auto. }
  set (p' := if beq (next_code_point cs p) escape && (1 <? length p)%nat then skipn 1 p else p) in *.
  assert (LT2 := LT). clear LT. cbv zeta in LT2.
  assert (Lp' : (length p' <= length p)%nat) by (unfold p'; destruct (_ && _); [rewrite skipn_length|]; lia).
  destruct (beq_spec (next_code_point cs p') []) as [E3|E3].
  { cbn [like_loop]. rewrite (proj2 (LT2 TNone) eq_refl). eexists. split; [reflexivity|]. split; discriminate. }
  set (pp' := next_code_point cs p') in *.
  assert (EI : It p = Lit pp' :: It (skipn (length pp') p')).
  { unfold p' in *. destruct (beq_spec (next_code_point cs p) escape) as [E4|E4].
    - destruct (Nat.ltb_spec 1 (length p)) as [L1|L1]; cbn [andb] in *.
      + assert (EU : U p = escape :: U (skipn 1 p)) by (rewrite units_next by auto; rewrite E4; reflexivity).
        rewrite EU. rewrite (units_next cs (skipn 1 p)) by auto. reflexivity.
      + assert (Q : p = [92]).
        { destruct (next_prefix cs p) as [r Er]. rewrite E4 in Er. rewrite Er in L1. cbn in L1. destruct r; [auto|cbn in L1; lia]. }
        assert (Q2 : pp' = [92]) by (unfold pp'; rewrite E4; reflexivity).
        rewrite Q2. rewrite (units_next cs p) by auto. rewrite E4. rewrite Q. reflexivity.
    - cbn [andb] in *. rewrite (units_next cs p) by auto. apply items_other; auto. }
  destruct t as [|x t].
  { apply step_fail; auto; [|apply LT2; reflexivity]. rewrite EI. intros M. inversion M. }
  set (t' := x :: t) in *.
  destruct (beq_spec (next_code_point cs t') []) as [E5|E5].
  { cbn [like_loop]. rewrite (proj2 (LT2 TNone) eq_refl). eexists. split; [reflexivity|]. split; discriminate. }
  pose proof (units_next cs t' E5) as UT.
  destruct (beq_spec pp' (next_code_point cs t')) as [E6|E6].
  - apply (step_single t' p resume (Lit pp') (skipn (length pp') p')); auto; try discriminate.
    + rewrite skipn_length. assert (length pp' <> 0%nat) by (destruct pp'; [congruence|discriminate]).
      assert (length p <> 0%nat) by (destruct p; [congruence|discriminate]). lia.
    + rewrite offset_next by auto. apply LT2. reflexivity.
    + intros ps. rewrite UT, match_lit, <- E6. rewrite offset_next by auto. rewrite <- E6. split; [intros (r & Q & M); assert (r = U (skipn (length pp') t')) by congruence; subst r; auto|eauto].
  - apply step_fail; auto; [|apply LT2; reflexivity]. rewrite EI, UT, match_lit. intros (r & Q & M). congruence.
Qed.

Lemma like_ok t p : like cs t p <> AFuel /\ forall b, like cs t p = ABool b -> (b = true <-> matches (It p) (U t)).
Proof.
  destruct (loop_ok (like_fuel t p) t p None) as (a & E & NF & K); [exact I|unfold need, like_fuel; lia|].
  unfold like. rewrite E. split; [auto|]. intros b Hb. rewrite (K b Hb). cbn [other]. tauto.
Qed.
End Loop.
