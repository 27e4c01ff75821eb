(** * Proofs for the commit of a distributed transaction *)

From Coq Require Import List Arith Lia Bool Sorting.Sorted.
From Verif Require Import Txn.CommitModel Txn.CommitSpec.
Import ListNotations.

(** ** Small facts *)

Lemma memb_In k l : memb k l = true <-> In k l.
Proof.
  unfold memb. rewrite existsb_exists. split.
  - intros (x & Hx & E). apply Nat.eqb_eq in E. now subst.
  - intros Hi. exists k. split; [assumption|apply Nat.eqb_refl].
Qed.

Lemma In_drop k bad l : In k (drop bad l) <-> In k l /\ ~ In k bad.
Proof.
  unfold drop. rewrite filter_In. split.
  - intros (A & B). split; [assumption|]. intros Hc.
    apply (proj2 (memb_In k bad)) in Hc. unfold memb in Hc. rewrite Hc in B. discriminate.
  - intros (A & B). split; [assumption|].
    destruct (existsb (Nat.eqb k) bad) eqn:E; [|reflexivity].
    exfalso. apply B. now apply memb_In.
Qed.

Lemma sorted_filter (f : nat -> bool) l : StronglySorted lt l -> StronglySorted lt (filter f l).
Proof.
  induction 1 as [|x l Hs IH Hf]; cbn; [constructor|].
  destruct (f x); [|assumption]. constructor; [assumption|].
  rewrite Forall_forall in *. intros y Hy. apply filter_In in Hy. now apply Hf.
Qed.

Lemma sorted_app l n : StronglySorted lt l -> (forall k, In k l -> k < n) -> StronglySorted lt (l ++ [n]).
Proof.
  induction 1 as [|x l Hs IH Hf]; cbn; intros Hn.
  - repeat constructor.
  - constructor; [apply IH; auto|]. rewrite Forall_forall in *. intros y Hy.
    apply in_app_or in Hy. destruct Hy as [Hy|[<-|[]]]; [now apply Hf|]. apply Hn. now left.
Qed.

Lemma rop_eqb_eq a b : rop_eqb a b = true <-> a = b.
Proof. destruct a, b; cbn; split; congruence. Qed.

Lemma phase_eqb_eq a b : phase_eqb a b = true <-> a = b.
Proof. destruct a, b; cbn; split; congruence. Qed.

Lemma replied_ok_In r o n s : replied is_ok r o n s = true <-> In (r, o, n, AOk) (s_rep s).
Proof.
  unfold replied. rewrite existsb_exists. split.
  - intros ([[[r' o'] n'] a] & Hi & E).
    rewrite !andb_true_iff, !Nat.eqb_eq, rop_eqb_eq in E. destruct E as (((-> & ->) & ->) & E).
    destruct a; try discriminate. assumption.
  - intros Hi. exists (r, o, n, AOk). split; [assumption|].
    rewrite !Nat.eqb_refl. replace (rop_eqb o o) with true by (destruct o; reflexivity). reflexivity.
Qed.

Lemma replied_rolled_In r o n s : replied is_rolled r o n s = true <-> In (r, o, n, ARolled) (s_rep s).
Proof.
  unfold replied. rewrite existsb_exists. split.
  - intros ([[[r' o'] n'] a] & Hi & E).
    rewrite !andb_true_iff, !Nat.eqb_eq, rop_eqb_eq in E. destruct E as (((-> & ->) & ->) & E).
    destruct a; try discriminate. assumption.
  - intros Hi. exists (r, o, n, ARolled). split; [assumption|].
    rewrite !Nat.eqb_refl. replace (rop_eqb o o) with true by (destruct o; reflexivity). reflexivity.
Qed.

Section Fixed.
Variable p : nat.

Definition comm (s : st) (r : nat) : Prop := exists l, In (true, l) (g_hist (s_reg s r)).

Definition doomed (s : st) : Prop :=
  g_tag (s_reg s p) = true \/ (c_ph (s_cli s) = PAb /\ c_dec (s_cli s) = false).

Definition works (q : req) : Prop := q_op q = RDml \/ q_op q = RPrep.

Definition contacted (s : st) : Prop :=
  exists x q, In (x, q) (s_sent s) /\ x <> p /\ works q.

Definition carries (q : req) (k : nat) : Prop := (q_op q = RDml /\ q_seq q = k) \/ In k (q_cached q).

Definition holds (g : region) (k : nat) : Prop := exists pl, g_pool g = Some pl /\ In k (pl_run pl).
Definition holds_prep (g : region) (k : nat) : Prop :=
  exists pl, g_pool g = Some pl /\ pl_prep pl = true /\ In k (pl_run pl).
Definition has_committed (g : region) (k : nat) : Prop :=
  exists l, In (true, l) (g_hist g) /\ In k l.

Lemma accounted_iff s : accounted p s = true <->
  (exists pl, g_pool (s_reg s p) = Some pl) \/ g_tag (s_reg s p) = true \/ comm s p.
Proof.
  unfold accounted, comm. rewrite !orb_true_iff, existsb_exists. split.
  - intros [[A|A]|([b l] & A & B)].
    + destruct (g_pool (s_reg s p)); [left; eauto|discriminate].
    + auto.
    + cbn in B. subst b. right. right. eauto.
  - intros [(pl & A)|[A|(l & A)]].
    + rewrite A. auto.
    + auto.
    + right. exists (true, l). auto.
Qed.

(** ** The invariant *)

Definition sent_ok (s : st) (r : nat) (q : req) : Prop :=
  let c := s_cli s in
  match q_op q with
  | RDml => q_cached q = [] /\ 2 <= q_seq q <= c_n c /\ incl (q_bad q) (c_bad c) /\
            c_auto c = false /\ (c_ph c = PPrep -> q_seq q < c_n c)
  | RPrep => q = mkReq RPrep (c_n c) (c_bad c) (if c_auto c then [2] else []) /\
             In r (c_parts c) /\ c_ph c <> PRun /\ c_ph c <> PStmt /\ 2 <= c_n c
  | RCom => q_seq q = S (c_n c) /\ q_cached q = [] /\ c_dec c = true /\ In r (c_parts c) /\
            (r <> p -> comm s p)
  | RRoll => q_seq q = S (c_n c) /\ q_cached q = [] /\ (c_ph c = PAb \/ c_ph c = PCancel) /\
             (r <> p -> doomed s)
  end.

Definition pool_ok (s : st) (r : nat) (pl : pool) : Prop :=
  let c := s_cli s in
  1 <= pl_seq pl <= c_n c /\ StronglySorted lt (pl_run pl) /\
  (forall k, In k (pl_run pl) -> 2 <= k <= pl_seq pl /\ sent_to s r k) /\
  (pl_wrote pl = false -> pl_run pl = []) /\
  (pl_prep pl = true ->
     (exists q, In (r, q) (s_sent s) /\ q_op q = RPrep) /\
     (forall k, In k (pl_run pl) -> ~ In k (c_bad c)) /\
     (pl_seq pl = c_n c \/ (pl_wrote pl = false /\ c_auto c = false))) /\
  (pl_err pl = false ->
     forall q, In (r, q) (s_sent s) -> works q -> q_seq q = pl_seq pl ->
       (forall k, carries q k -> In k (pl_run pl) \/ In k (c_bad c)) /\
       (q_op q = RPrep -> pl_prep pl = true)) /\
  (c_auto c = true -> pl_seq pl = 1 \/ pl_seq pl = 3 \/
     (pl_seq pl = 2 /\ pl_prep pl = false /\ pl_wrote pl = true /\ (In 2 (pl_run pl) \/ In 2 (c_bad c)))) /\
  (pl_seq pl = 1 \/ (c_auto c = true /\ pl_seq pl = 2) \/
     exists q, In (r, q) (s_sent s) /\ works q /\ q_seq q = pl_seq pl).

Record Inv (s : st) : Prop := {
  i_hist : forall r, g_hist (s_reg s r) <> [] ->
    g_pool (s_reg s r) = None /\ g_fin (s_reg s r) = true /\ exists e, g_hist (s_reg s r) = [e];
  i_tag : forall r, g_tag (s_reg s r) = true -> g_pool (s_reg s r) = None /\ ~ comm s r;
  i_out : forall r pl, g_pool (s_reg s r) = Some pl -> exists q, In (r, q) (s_sent s) /\ works q;
  i_live1 : c_ph (s_cli s) <> PAb -> primed p s = true -> accounted p s = true;
  i_live2 : contacted s -> primed p s = true /\ accounted p s = true;
  i_comm : forall r, comm s r -> c_dec (s_cli s) = true /\ comm s p;
  i_fin : forall r, g_fin (s_reg s r) = true -> doomed s \/ c_dec (s_cli s) = true;
  i_qry : forall r b, In (r, b) (s_qry s) -> r <> p /\ contacted s;
  i_ans : forall r a, In (r, a) (s_ans s) ->
    r <> p /\ match a with SRolled => g_tag (s_reg s p) = true | _ => comm s p end;
  i_sent : forall r q, In (r, q) (s_sent s) -> sent_ok s r q;
  i_uniq : forall r q r' q', In (r, q) (s_sent s) -> In (r', q') (s_sent s) ->
    q_op q = RDml -> q_op q' = RPrep -> q_seq q < q_seq q';
  i_ph_run : c_ph (s_cli s) = PRun \/ c_ph (s_cli s) = PStmt ->
    c_dec (s_cli s) = false /\ c_auto (s_cli s) = false;
  i_ph_prep : c_ph (s_cli s) = PPrep -> c_dec (s_cli s) = false;
  i_ph_dec : c_ph (s_cli s) = PCom \/ c_ph (s_cli s) = PDone \/ c_ph (s_cli s) = PCancel ->
    c_dec (s_cli s) = true;
  i_ph_ab : c_ph (s_cli s) = PAb -> c_dec (s_cli s) = true -> g_tag (s_reg s p) = true;
  i_ph_n : 1 <= c_n (s_cli s) /\ (c_ph (s_cli s) = PStmt -> 2 <= c_n (s_cli s)) /\
    (c_auto (s_cli s) = true -> c_n (s_cli s) = 3) /\
    (c_ph (s_cli s) = PPrep -> 2 <= c_n (s_cli s)) /\
    (c_dec (s_cli s) = true -> 2 <= c_n (s_cli s));
  i_bad : forall k, In k (c_bad (s_cli s)) -> 2 <= k <= c_n (s_cli s);
  i_bad_cur : c_ph (s_cli s) = PStmt -> ~ In (c_n (s_cli s)) (c_bad (s_cli s));
  i_auto_bad : c_auto (s_cli s) = true -> c_bad (s_cli s) = [];
  i_auto_good : c_auto (s_cli s) = true -> c_good (s_cli s) = [];
  i_parts : c_ph (s_cli s) = PPrep \/ c_dec (s_cli s) = true ->
    In p (c_parts (s_cli s)) /\
    forall r q, In (r, q) (s_sent s) -> q_op q = RDml -> In r (c_parts (s_cli s));
  i_dec : c_dec (s_cli s) = true -> forall r, In r (c_parts (s_cli s)) ->
    In (r, RPrep, c_n (s_cli s), AOk) (s_rep s);
  i_good : forall r k, sent_to s r k -> ~ In k (c_bad (s_cli s)) ->
    In k (c_good (s_cli s)) \/
    ((c_ph (s_cli s) = PStmt \/ (c_ph (s_cli s) = PAb /\ c_dec (s_cli s) = false)) /\ k = c_n (s_cli s)) \/
    (c_auto (s_cli s) = true /\ k = 2);
  i_good_n : forall k, In k (c_good (s_cli s)) -> 2 <= k <= c_n (s_cli s) /\
    (c_ph (s_cli s) = PStmt -> k < c_n (s_cli s));
  i_pool : forall r pl, g_pool (s_reg s r) = Some pl -> pool_ok s r pl;
  i_comp : forall r k, sent_to s r k -> In k (c_good (s_cli s)) -> ~ In k (c_bad (s_cli s)) ->
    doomed s \/ holds (s_reg s r) k \/ has_committed (s_reg s r) k;
  i_stmt : forall r, c_ph (s_cli s) = PStmt -> sent_to s r (c_n (s_cli s)) ->
    In (r, RDml, c_n (s_cli s), AOk) (s_rep s) ->
    g_tag (s_reg s p) = true \/ holds (s_reg s r) (c_n (s_cli s));
  i_ack : forall r n, In (r, RPrep, n, AOk) (s_rep s) -> forall k, sent_to s r k ->
    ~ In k (c_bad (s_cli s)) ->
    doomed s \/ holds_prep (s_reg s r) k \/ has_committed (s_reg s r) k;
  i_ackp : forall n, In (p, RPrep, n, AOk) (s_rep s) ->
    doomed s \/ (exists pl, g_pool (s_reg s p) = Some pl /\ pl_prep pl = true) \/ comm s p;
  i_told : forall n, In (p, RCom, n, AOk) (s_rep s) -> comm s p;
  i_rolled : forall n, In (p, RCom, n, ARolled) (s_rep s) -> g_tag (s_reg s p) = true;
  i_rep : forall r o n a, In (r, o, n, a) (s_rep s) ->
    exists q, In (r, q) (s_sent s) /\ q_op q = o /\ q_seq q = n;
  i_end : forall r l, In (true, l) (g_hist (s_reg s r)) -> StronglySorted lt l /\
    forall k, In k l -> sent_to s r k /\ ~ In k (c_bad (s_cli s));
  i_drop : forall r l, In (false, l) (g_hist (s_reg s r)) ->
    forall k, In k l -> In k (c_bad (s_cli s)) \/ doomed s;
  i_told_ph : c_ph (s_cli s) = PDone -> comm s p
}.

Lemma inv_init : Inv init.
Proof.
  assert (Nc : forall r, ~ comm init r) by (intros r (l & []%in_nil)).
  assert (Nk : ~ contacted init) by (intros (x & q & []%in_nil & _)).
  assert (Ns : forall r k, ~ sent_to init r k) by (intros r k (q & []%in_nil & _)).
  constructor; intros; try discriminate; try contradiction;
    try (exfalso; eapply Nc; eassumption); try (exfalso; eapply Ns; eassumption);
    try (cbn in *; contradiction).
  - cbn. auto.
  - cbn in H. decompose [or] H; discriminate.
  - cbn. repeat split; intros; try discriminate; lia.
  - cbn in H. decompose [or] H; discriminate.
Qed.

(** ** Replies of a region *)

Lemma upd_same r g f : upd r g f r = g.
Proof. unfold upd. now rewrite Nat.eqb_refl. Qed.
Lemma upd_other r g f x : x <> r -> upd r g f x = f x.
Proof. unfold upd. intros E. apply Nat.eqb_neq in E. now rewrite E. Qed.

Lemma pool_no_hist s r pl : Inv s -> g_pool (s_reg s r) = Some pl -> g_hist (s_reg s r) = [].
Proof.
  intros V E. destruct (g_hist (s_reg s r)) eqn:Eh; [reflexivity|].
  assert (N : g_hist (s_reg s r) <> []) by (rewrite Eh; discriminate).
  destruct (i_hist s V r N) as (A & _). congruence.
Qed.

Lemma pool_no_tag s r pl : Inv s -> g_pool (s_reg s r) = Some pl -> g_tag (s_reg s r) = false.
Proof.
  intros V E. destruct (g_tag (s_reg s r)) eqn:Et; [|reflexivity].
  destruct (i_tag s V r Et) as (A & _). congruence.
Qed.

Ltac cases_reg x r := destruct (Nat.eq_dec x r) as [->|?];
  [rewrite ?upd_same in * | rewrite ?upd_other in * by assumption].

(** One region changes. *)
Lemma inv_reg s r g' :
  Inv s ->
  let s' := with_reg r g' s in
  (g_hist g' <> [] -> g_pool g' = None /\ g_fin g' = true /\ exists e, g_hist g' = [e]) ->
  (g_tag g' = true -> g_pool g' = None /\ forall l, ~ In (true, l) (g_hist g')) ->
  (g_pool g' <> None -> exists q, In (r, q) (s_sent s) /\ works q) ->
  (primed p s = true -> accounted p s = true -> accounted p s' = true) ->
  (comm s r -> comm s' r) ->
  (g_tag (s_reg s r) = true -> g_tag g' = true) ->
  (comm s' r -> c_dec (s_cli s) = true /\ comm s' p) ->
  (g_fin g' = true -> doomed s' \/ c_dec (s_cli s) = true) ->
  (forall pl, g_pool g' = Some pl -> pool_ok s r pl) ->
  (forall k, ~ In k (c_bad (s_cli s)) -> holds (s_reg s r) k ->
     doomed s' \/ holds g' k \/ has_committed g' k) ->
  (forall k, ~ In k (c_bad (s_cli s)) -> holds_prep (s_reg s r) k ->
     doomed s' \/ holds_prep g' k \/ has_committed g' k) ->
  (forall k, has_committed (s_reg s r) k -> has_committed g' k) ->
  (r = p -> primed p s = true -> (exists pl, g_pool (s_reg s p) = Some pl /\ pl_prep pl = true) ->
     doomed s' \/ (exists pl, g_pool g' = Some pl /\ pl_prep pl = true) \/ comm s' p) ->
  (forall l, In (true, l) (g_hist g') -> StronglySorted lt l /\
     forall k, In k l -> sent_to s r k /\ ~ In k (c_bad (s_cli s))) ->
  (forall l, In (false, l) (g_hist g') -> forall k, In k l -> In k (c_bad (s_cli s)) \/ doomed s') ->
  Inv s'.
Proof.
  intros V s' Hh Ht Ho Ha Hc Htm Hcn Hf Hp Hk Hkp Hhc Hap He Hd.
  assert (Cm : forall x, comm s x -> comm s' x).
  { intros x. unfold s', comm in *. cbn in *. cases_reg x r; auto. }
  assert (Tm : forall x, g_tag (s_reg s x) = true -> g_tag (s_reg s' x) = true).
  { intros x. unfold s'. cbn. cases_reg x r; auto. }
  assert (Dm : doomed s -> doomed s').
  { unfold doomed. intros [A|A]; [left; now apply Tm|right; exact A]. }
  assert (Hold : forall x k, ~ In k (c_bad (s_cli s)) -> holds (s_reg s x) k ->
            doomed s' \/ holds (s_reg s' x) k \/ has_committed (s_reg s' x) k).
  { intros x k. unfold s' at 2 3. cbn. cases_reg x r; auto. }
  assert (Holdp : forall x k, ~ In k (c_bad (s_cli s)) -> holds_prep (s_reg s x) k ->
            doomed s' \/ holds_prep (s_reg s' x) k \/ has_committed (s_reg s' x) k).
  { intros x k. unfold s' at 2 3. cbn. cases_reg x r; auto. }
  assert (Hcm : forall x k, has_committed (s_reg s x) k -> has_committed (s_reg s' x) k).
  { intros x k. unfold s'. cbn. cases_reg x r; auto. }
  assert (Eso : forall x q, sent_ok s x q -> sent_ok s' x q).
  { intros x q. unfold sent_ok. change (s_cli s') with (s_cli s).
    destruct (q_op q); try tauto.
    intros (A & B & C & D & E). repeat (split; [assumption|]). intros N. auto. }
  constructor; change (s_cli s') with (s_cli s); change (s_sent s') with (s_sent s);
    change (s_rep s') with (s_rep s); change (s_qry s') with (s_qry s);
    change (s_ans s') with (s_ans s); change (primed p s') with (primed p s).
  - intros x. unfold s'. cbn. cases_reg x r; [assumption|]. apply (i_hist s V).
  - intros x. unfold s' at 1 2, comm. cbn. cases_reg x r.
    + intros N. destruct (Ht N) as (A & B). split; [assumption|]. intros (l & Hl). exact (B l Hl).
    + apply (i_tag s V).
  - intros x pl. unfold s' at 1. cbn. cases_reg x r.
    + intros E. apply Ho; congruence.
    + intros E. exact (i_out s V x pl E).
  - intros A B. apply Ha; auto. now apply (i_live1 s V).
  - intros A. destruct (i_live2 s V A). split; auto.
  - intros x. destruct (Nat.eq_dec x r) as [->|N]; [assumption|].
    intros C. assert (C0 : comm s x) by (unfold s', comm in C; cbn in C; rewrite upd_other in C by assumption; exact C).
    destruct (i_comm s V x C0). auto.
  - intros x. unfold s' at 1. cbn. cases_reg x r; [assumption|].
    intros E. destruct (i_fin s V x E); auto.
  - intros x b Hi. exact (i_qry s V x b Hi).
  - intros x a Hi. destruct (i_ans s V x a Hi) as (A & B). split; [assumption|]. destruct a; auto.
  - intros x q Hi. apply Eso. now apply (i_sent s V).
  - apply (i_uniq s V).
  - apply (i_ph_run s V).
  - apply (i_ph_prep s V).
  - apply (i_ph_dec s V).
  - intros A B. apply Tm. now apply (i_ph_ab s V).
  - apply (i_ph_n s V).
  - apply (i_bad s V).
  - apply (i_bad_cur s V).
  - apply (i_auto_bad s V).
  - apply (i_auto_good s V).
  - apply (i_parts s V).
  - apply (i_dec s V).
  - apply (i_good s V).
  - apply (i_good_n s V).
  - intros x pl. unfold s' at 1. cbn. cases_reg x r; [apply Hp|]. apply (i_pool s V).
  - intros x k A B C. destruct (i_comp s V x k A B C) as [D|[D|D]]; auto.
  - intros x A B C. destruct (i_stmt s V x A B C) as [D|D]; auto.
    destruct (Hold x _ (i_bad_cur s V A) D) as [[D1|(D1 & _)]|[D1|D1]]; auto;
      [change (s_cli s') with (s_cli s) in D1; congruence|].
    destruct D1 as (l & Hl & _). exfalso.
    assert (Cx : comm s' x) by (exists l; exact Hl).
    assert (c_dec (s_cli s) = true).
    { destruct (Nat.eq_dec x r) as [->|N]; [now apply Hcn|].
      apply (i_comm s V x). unfold s', comm in Cx. cbn in Cx. rewrite upd_other in Cx by assumption. exact Cx. }
    destruct (i_ph_run s V) as (X & _); auto. congruence.
  - intros x n Hi k A B. destruct (i_ack s V x n Hi k A B) as [D|[D|D]]; auto.
  - intros n Hi. destruct (i_ackp s V n Hi) as [D|[D|D]]; auto.
    unfold s' at 2. cbn. cases_reg p r; [|auto]. apply Hap; auto.
    unfold primed. apply existsb_exists. exists (r, RPrep, n, AOk).
    split; [assumption|]. now rewrite Nat.eqb_refl.
  - intros n Hi. apply Cm. now apply (i_told s V n).
  - intros n Hi. apply Tm. now apply (i_rolled s V n).
  - apply (i_rep s V).
  - intros x l. unfold s' at 1. cbn. cases_reg x r; [apply He|]. apply (i_end s V).
  - intros x l. unfold s' at 1. cbn. cases_reg x r; [apply Hd|].
    intros Hi k Hl. destruct (i_drop s V x l Hi k Hl); auto.
  - intros A. apply Cm. now apply (i_told_ph s V).
Qed.

Lemma primed_iff s : primed p s = true <->
  exists o n a, In (p, o, n, a) (s_rep s) /\ (o = RDml \/ o = RPrep) /\ (a = AOk \/ a = AWarn).
Proof.
  unfold primed. rewrite existsb_exists. split.
  - intros ([[[r o] n] a] & Hi & E). rewrite !andb_true_iff, Nat.eqb_eq in E.
    destruct E as ((-> & E1) & E2). exists o, n, a. split; [assumption|].
    destruct o, a; try discriminate; auto.
  - intros (o & n & a & Hi & A & B). exists (p, o, n, a). split; [assumption|].
    rewrite Nat.eqb_refl. destruct A as [->| ->], B as [->| ->]; reflexivity.
Qed.

(** The pool entry of a region changes. *)
Lemma inv_set_pool s r pl' :
  Inv s ->
  (g_pool (s_reg s r) = None -> g_tag (s_reg s r) = false /\ g_fin (s_reg s r) = false) ->
  (exists q, In (r, q) (s_sent s) /\ works q) ->
  pool_ok s r pl' ->
  (forall pl, g_pool (s_reg s r) = Some pl ->
     (forall k, In k (pl_run pl) -> ~ In k (c_bad (s_cli s)) -> In k (pl_run pl')) /\
     (pl_prep pl = true -> pl_prep pl' = true)) ->
  Inv (with_reg r (set_pool (Some pl') (s_reg s r)) s).
Proof.
  intros V Hn Hc Hp Hm.
  assert (Hh : g_hist (s_reg s r) = []).
  { destruct (g_pool (s_reg s r)) eqn:E; [eapply pool_no_hist; eauto|].
    destruct (g_hist (s_reg s r)) eqn:Eh; [reflexivity|].
    assert (N : g_hist (s_reg s r) <> []) by (rewrite Eh; discriminate).
    destruct (i_hist s V r N) as (_ & A & _). destruct (Hn eq_refl). congruence. }
  assert (Ht : g_tag (s_reg s r) = false).
  { destruct (g_pool (s_reg s r)) eqn:E; [eapply pool_no_tag; eauto|]. now apply Hn. }
  assert (Hcx : forall x, comm (with_reg r (set_pool (Some pl') (s_reg s r)) s) x <-> comm s x).
  { intros x. unfold comm. cbn. cases_reg x r; cbn; reflexivity. }
  assert (Hdx : doomed (with_reg r (set_pool (Some pl') (s_reg s r)) s) <-> doomed s).
  { unfold doomed. cbn. cases_reg p r; cbn; reflexivity. }
  apply inv_reg; try assumption.
  - cbn. intros N. congruence.
  - cbn. congruence.
  - auto.
  - rewrite !accounted_iff, Hcx. cbn. cases_reg p r; cbn; eauto.
  - apply Hcx.
  - auto.
  - rewrite !Hcx. apply (i_comm s V).
  - rewrite Hdx. cbn. apply (i_fin s V).
  - cbn. intros pl E. injection E as <-. assumption.
  - intros k Hb (pl & E & Hk). right. left. exists pl'. split; [reflexivity|]. now apply (proj1 (Hm pl E)).
  - intros k Hb (pl & E & E2 & Hk). right. left. exists pl'. destruct (Hm pl E). repeat split; auto.
  - auto.
  - intros -> _ (pl & E & E2). right. left. exists pl'. split; [reflexivity|]. now apply (proj2 (Hm pl E)).
  - cbn. intros l Hl. rewrite Hh in Hl. destruct Hl.
  - cbn. intros l Hl. rewrite Hh in Hl. destruct Hl.
Qed.

(** A transaction without writes that raft has not seen is lost. *)
Lemma inv_lose s r pl :
  Inv s -> g_pool (s_reg s r) = Some pl -> pl_run pl = [] ->
  keeps_track p s (with_reg r (set_pool None (s_reg s r)) s) = true ->
  Inv (with_reg r (set_pool None (s_reg s r)) s).
Proof.
  intros V E Er Hk.
  assert (Hh := pool_no_hist s r pl V E). assert (Ht := pool_no_tag s r pl V E).
  assert (Hcx : forall x, comm (with_reg r (set_pool None (s_reg s r)) s) x <-> comm s x).
  { intros x. unfold comm. cbn. cases_reg x r; cbn; reflexivity. }
  assert (Hdx : doomed (with_reg r (set_pool None (s_reg s r)) s) <-> doomed s).
  { unfold doomed. cbn. cases_reg p r; cbn; reflexivity. }
  assert (Hacc : primed p s = true -> accounted p s = true ->
            accounted p (with_reg r (set_pool None (s_reg s r)) s) = true).
  { intros A B. unfold keeps_track in Hk. rewrite A, B in Hk. cbn in Hk.
    rewrite orb_false_r in Hk. exact Hk. }
  apply inv_reg; try assumption.
  - cbn. intros N. congruence.
  - cbn. congruence.
  - cbn. congruence.
  - apply Hcx.
  - auto.
  - rewrite !Hcx. apply (i_comm s V).
  - rewrite Hdx. cbn. apply (i_fin s V).
  - cbn. discriminate.
  - intros k Hb (pl0 & E0 & Hi). exfalso. rewrite E in E0. injection E0 as <-. rewrite Er in Hi. destruct Hi.
  - intros k Hb (pl0 & E0 & _ & Hi). exfalso. rewrite E in E0. injection E0 as <-. rewrite Er in Hi. destruct Hi.
  - auto.
  - intros -> Hpr (pl0 & E0 & _). exfalso.
    assert (A : accounted p s = true) by (apply accounted_iff; left; eauto).
    specialize (Hacc Hpr A). apply accounted_iff in Hacc. rewrite Hcx in Hacc. cbn in Hacc.
    rewrite upd_same in Hacc. cbn in Hacc. destruct Hacc as [(? & X)|[X|(l & X)]]; try congruence.
    rewrite Hh in X. destruct X.
  - cbn. intros l Hl. rewrite Hh in Hl. destruct Hl.
  - cbn. intros l Hl. rewrite Hh in Hl. destruct Hl.
Qed.

(** A region that never had the transaction, or lost it, is told to forget it. *)
Lemma inv_mark s r :
  Inv s -> g_pool (s_reg s r) = None -> (doomed s \/ c_dec (s_cli s) = true) ->
  Inv (with_reg r (mark_fin (s_reg s r)) s).
Proof.
  intros V E Hf.
  assert (Hcx : forall x, comm (with_reg r (mark_fin (s_reg s r)) s) x <-> comm s x).
  { intros x. unfold comm. cbn. cases_reg x r; cbn; reflexivity. }
  assert (Hdx : doomed (with_reg r (mark_fin (s_reg s r)) s) <-> doomed s).
  { unfold doomed. cbn. cases_reg p r; cbn; reflexivity. }
  apply inv_reg; try assumption.
  - cbn. intros N. destruct (i_hist s V r N) as (A & B & C). auto.
  - cbn. intros N. destruct (i_tag s V r N) as (A & B). split; [assumption|].
    intros l Hl. apply B. exists l. exact Hl.
  - cbn. congruence.
  - rewrite !accounted_iff, Hcx. cbn. cases_reg p r; cbn; tauto.
  - apply Hcx.
  - auto.
  - rewrite !Hcx. apply (i_comm s V).
  - rewrite Hdx. auto.
  - cbn. intros pl X. congruence.
  - auto.
  - auto.
  - auto.
  - intros -> _ (pl & X & _). congruence.
  - cbn. apply (i_end s V).
  - cbn. intros l Hl k Hk. rewrite Hdx. eapply (i_drop s V); eauto.
Qed.

(** A region commits. *)
Lemma inv_commit s r pl :
  Inv s -> g_pool (s_reg s r) = Some pl ->
  pl_prep pl = true \/ pl_wrote pl = false ->
  c_dec (s_cli s) = true -> (r <> p -> comm s p) ->
  Inv (with_reg r (end_txn true false true (pl_run pl) (s_reg s r)) s).
Proof.
  intros V E Hpw Hd Hc.
  assert (Hh := pool_no_hist s r pl V E). assert (Ht := pool_no_tag s r pl V E).
  destruct (i_pool s V r pl E) as (P1 & P2 & P3 & P4 & P5 & P6 & P7 & P8).
  set (s' := with_reg r (end_txn true false true (pl_run pl) (s_reg s r)) s).
  assert (Hcm : comm s' r).
  { exists (pl_run pl). unfold s'. cbn. rewrite upd_same. cbn. apply in_or_app. right. now left. }
  assert (Hcp : comm s' p).
  { destruct (Nat.eq_dec r p) as [<-|N]; [assumption|]. destruct (Hc N) as (l & Hl).
    exists l. unfold s'. cbn. rewrite upd_other by congruence. assumption. }
  assert (Hheld : forall k, holds (s_reg s r) k -> has_committed (end_txn true false true (pl_run pl) (s_reg s r)) k).
  { intros k (pl0 & E0 & Hi). rewrite E in E0. injection E0 as <-. exists (pl_run pl).
    split; [|assumption]. cbn. apply in_or_app. right. now left. }
  apply inv_reg; try assumption.
  - cbn. rewrite Hh. intros _. rewrite orb_true_r. cbn. eauto.
  - cbn. rewrite Ht. discriminate.
  - cbn. congruence.
  - intros _ _. apply accounted_iff. right. right. exact Hcp.
  - auto.
  - cbn. rewrite Ht. discriminate.
  - auto.
  - auto.
  - cbn. discriminate.
  - auto.
  - intros k Hb (pl0 & E0 & E1 & Hi). right. right. apply Hheld. exists pl0. auto.
  - intros k (l & Hl & _). rewrite Hh in Hl. destruct Hl.
  - auto.
  - cbn. rewrite Hh. intros l [X|[]]. injection X as <-. split; [assumption|].
    intros k Hk. split; [now apply P3|]. destruct Hpw as [Q|Q].
    + now apply (proj1 (proj2 (P5 Q))).
    + rewrite (P4 Q) in Hk. destruct Hk.
  - cbn. rewrite Hh. intros l [X|[]]. discriminate.
Qed.

(** A region drops the transaction. *)
Lemma inv_drop s r pl t :
  Inv s -> g_pool (s_reg s r) = Some pl ->
  let s' := with_reg r (end_txn false t true (pl_run pl) (s_reg s r)) s in
  keeps_track p s s' = true ->
  (forall k, In k (pl_run pl) -> In k (c_bad (s_cli s)) \/ doomed s') ->
  (doomed s' \/ c_dec (s_cli s) = true) ->
  Inv s'.
Proof.
  intros V E s' Hkt Hk Hf.
  assert (Hh := pool_no_hist s r pl V E). assert (Ht := pool_no_tag s r pl V E).
  assert (Hcx : forall x, comm s' x <-> comm s x).
  { intros x. unfold s', comm. cbn. cases_reg x r; cbn; [|reflexivity]. rewrite Hh. cbn. split.
    - intros (l & [X|[]]). discriminate.
    - intros (l & []). }
  assert (Hacc : primed p s = true -> accounted p s = true -> accounted p s' = true).
  { intros A B. unfold keeps_track in Hkt. rewrite A, B in Hkt. cbn [negb andb orb] in Hkt.
    rewrite orb_false_r in Hkt. exact Hkt. }
  apply inv_reg; try assumption.
  - cbn. rewrite Hh, orb_true_r. cbn. eauto.
  - cbn. intros _. split; [reflexivity|]. rewrite Hh. intros l [X|[]]. discriminate.
  - cbn. congruence.
  - apply Hcx.
  - cbn. rewrite Ht. discriminate.
  - fold s'. rewrite !Hcx. apply (i_comm s V).
  - auto.
  - cbn. discriminate.
  - intros k Hb (pl0 & E0 & Hi). rewrite E in E0. injection E0 as <-. destruct (Hk k Hi); [contradiction|auto].
  - intros k Hb (pl0 & E0 & _ & Hi). rewrite E in E0. injection E0 as <-. destruct (Hk k Hi); [contradiction|auto].
  - intros k (l & Hl & _). rewrite Hh in Hl. destruct Hl.
  - intros -> Hpr (pl0 & E0 & _).
    assert (A : accounted p s = true) by (apply accounted_iff; left; eauto).
    specialize (Hacc Hpr A). apply accounted_iff in Hacc. rewrite Hcx in Hacc.
    destruct Hacc as [(x & X)|[X|X]].
    + unfold s' in X. cbn in X. rewrite upd_same in X. discriminate.
    + left. left. exact X.
    + right. right. now apply Hcx.
  - cbn. rewrite Hh. intros l [X|[]]. discriminate.
  - cbn. rewrite Hh. intros l [X|[]]. injection X as <-. auto.
Qed.

(** ** A reply is given *)

Lemma inv_rep s r q a :
  Inv s -> In (r, q) (s_sent s) ->
  (r = p -> works q -> a = AOk \/ a = AWarn -> c_ph (s_cli s) <> PAb -> accounted p s = true) ->
  (c_ph (s_cli s) = PStmt -> q_op q = RDml -> a = AOk -> q_seq q = c_n (s_cli s) ->
     g_tag (s_reg s p) = true \/ holds (s_reg s r) (c_n (s_cli s))) ->
  (q_op q = RPrep -> a = AOk -> forall k, sent_to s r k -> ~ In k (c_bad (s_cli s)) ->
     doomed s \/ holds_prep (s_reg s r) k \/ has_committed (s_reg s r) k) ->
  (r = p -> q_op q = RPrep -> a = AOk ->
     doomed s \/ (exists pl, g_pool (s_reg s p) = Some pl /\ pl_prep pl = true) \/ comm s p) ->
  (r = p -> q_op q = RCom -> a = AOk -> comm s p) ->
  (r = p -> q_op q = RCom -> a = ARolled -> g_tag (s_reg s p) = true) ->
  Inv (add_rep (r, q_op q, q_seq q, a) s).
Proof.
  intros V Hi H1 H2 H3 H4 H5 H6.
  set (s' := add_rep (r, q_op q, q_seq q, a) s).
  assert (Pm : primed p s = true -> primed p s' = true).
  { rewrite !primed_iff. intros (o & n & b & X & Y). exists o, n, b. split; [now right|assumption]. }
  constructor; change (s_cli s') with (s_cli s); change (s_sent s') with (s_sent s);
    change (s_reg s') with (s_reg s); change (s_qry s') with (s_qry s);
    change (s_ans s') with (s_ans s); change (accounted p s') with (accounted p s).
  - apply (i_hist s V).
  - apply (i_tag s V).
  - apply (i_out s V).
  - intros A B. apply primed_iff in B. destruct B as (o & n & b & [X|X] & Y & Z).
    + injection X as -> <- <- <-. apply H1; auto.
    + apply (i_live1 s V A). apply primed_iff. exists o, n, b. auto.
  - intros A. destruct (i_live2 s V A). auto.
  - apply (i_comm s V).
  - apply (i_fin s V).
  - apply (i_qry s V).
  - apply (i_ans s V).
  - apply (i_sent s V).
  - apply (i_uniq s V).
  - apply (i_ph_run s V).
  - apply (i_ph_prep s V).
  - apply (i_ph_dec s V).
  - apply (i_ph_ab s V).
  - apply (i_ph_n s V).
  - apply (i_bad s V).
  - apply (i_bad_cur s V).
  - apply (i_auto_bad s V).
  - apply (i_auto_good s V).
  - apply (i_parts s V).
  - intros A x Hx. right. now apply (i_dec s V).
  - apply (i_good s V).
  - apply (i_good_n s V).
  - apply (i_pool s V).
  - apply (i_comp s V).
  - intros x A B [C|C].
    + injection C as -> E1 E2 E3. apply H2; auto.
    + now apply (i_stmt s V).
  - intros x n [C|C].
    + injection C as -> E1 E2 E3. intros k. apply H3; auto.
    + apply (i_ack s V x n C).
  - intros n [C|C].
    + injection C as -> E1 E2 E3. apply H4; auto.
    + apply (i_ackp s V n C).
  - intros n [C|C].
    + injection C as -> E1 E2 E3. apply H5; auto.
    + apply (i_told s V n C).
  - intros n [C|C].
    + injection C as -> E1 E2 E3. apply H6; auto.
    + apply (i_rolled s V n C).
  - intros x o n b [C|C].
    + injection C as -> <- <- <-. eauto.
    + now apply (i_rep s V) in C.
  - apply (i_end s V).
  - apply (i_drop s V).
  - apply (i_told_ph s V).
Qed.

(** ** Nothing changes in the region *)

Lemma upd_id s r x : upd r (s_reg s r) (s_reg s) x = s_reg s x.
Proof. cases_reg x r; reflexivity. Qed.

Lemma inv_same s r : Inv s -> Inv (with_reg r (s_reg s r) s).
Proof.
  intros V. assert (Hcx : forall x, comm (with_reg r (s_reg s r) s) x <-> comm s x).
  { intros x. unfold comm. cbn. rewrite upd_id. reflexivity. }
  assert (Hdx : doomed (with_reg r (s_reg s r) s) <-> doomed s).
  { unfold doomed. cbn. rewrite upd_id. reflexivity. }
  apply inv_reg; try assumption; try rewrite !Hdx; try rewrite !Hcx; auto.
  - apply (i_hist s V).
  - intros N. destruct (i_tag s V r N) as (A & B). split; [assumption|]. intros l Hl. apply B. now exists l.
  - intros N. destruct (g_pool (s_reg s r)) eqn:E; [|congruence]. eapply (i_out s V); eauto.
  - rewrite !accounted_iff, Hcx. cbn. rewrite upd_id. auto.
  - apply (i_comm s V).
  - apply (i_fin s V).
  - apply (i_pool s V).
  - intros -> _ (pl & A). right. left. eauto.
  - intros l. apply (i_end s V).
  - intros l Hl k Hk. rewrite Hdx. eapply (i_drop s V); eauto.
Qed.

Lemma deliver_same s r q a :
  Inv s -> In (r, q) (s_sent s) ->
  (r = p -> works q -> a = AOk \/ a = AWarn -> c_ph (s_cli s) <> PAb -> accounted p s = true) ->
  (c_ph (s_cli s) = PStmt -> q_op q = RDml -> a = AOk -> q_seq q = c_n (s_cli s) ->
     g_tag (s_reg s p) = true \/ holds (s_reg s r) (c_n (s_cli s))) ->
  (q_op q = RPrep -> a = AOk -> forall k, sent_to s r k -> ~ In k (c_bad (s_cli s)) ->
     doomed s \/ holds_prep (s_reg s r) k \/ has_committed (s_reg s r) k) ->
  (r = p -> q_op q = RPrep -> a = AOk ->
     doomed s \/ (exists pl, g_pool (s_reg s p) = Some pl /\ pl_prep pl = true) \/ comm s p) ->
  (r = p -> q_op q = RCom -> a = AOk -> comm s p) ->
  (r = p -> q_op q = RCom -> a = ARolled -> g_tag (s_reg s p) = true) ->
  Inv (add_rep (r, q_op q, q_seq q, a) (with_reg r (s_reg s r) s)).
Proof.
  intros V Hi H1 H2 H3 H4 H5 H6.
  assert (Hcx : forall x, comm (with_reg r (s_reg s r) s) x <-> comm s x).
  { intros x. unfold comm. cbn. rewrite upd_id. reflexivity. }
  assert (Hdx : doomed (with_reg r (s_reg s r) s) <-> doomed s).
  { unfold doomed. cbn. rewrite upd_id. reflexivity. }
  apply inv_rep; [now apply inv_same|exact Hi|..]; rewrite ?Hcx; rewrite ?Hdx; cbn; rewrite ?upd_id; auto.
  - intros A B C D. specialize (H1 A B C D). rewrite accounted_iff in *. rewrite Hcx. cbn. rewrite upd_id. exact H1.
  - intros A B k. rewrite Hdx. exact (H3 A B k).
Qed.

(** ** A request meets a transaction in the pool *)

Lemma pool_ok_new s r : Inv s -> pool_ok s r new_pool.
Proof.
  intros V. destruct (i_ph_n s V) as (N & _).
  repeat split; cbn; try lia; try (intros; contradiction); try discriminate; auto.
  - constructor.
  - destruct H1 as [E|E]; pose proof (i_sent s V r q H0) as So; unfold sent_ok in So; rewrite E in So.
    + cbn in H2. lia.
    + destruct So as (E1 & _ & _ & _ & A). rewrite E1 in H2. cbn in H2. lia.
  - intros E. pose proof (i_sent s V r q H0) as So; unfold sent_ok in So; rewrite E in So.
    destruct So as (E1 & _ & _ & _ & A). rewrite E1 in H2. cbn in H2. lia.
Qed.

Lemma pool_ok_undo s r bad pl : incl bad (c_bad (s_cli s)) -> pool_ok s r pl -> pool_ok s r (undo bad pl).
Proof.
  intros Hb (P1 & P2 & P3 & P4 & P5 & P6 & P7 & P8).
  assert (Hs : forall k, In k (pl_run (undo bad pl)) -> In k (pl_run pl)).
  { cbn. intros k Hk. now apply In_drop in Hk. }
  unfold pool_ok. cbn [pl_seq pl_run pl_wrote pl_prep pl_err undo].
  split; [assumption|]. split; [now apply sorted_filter|]. split; [auto|].
  split; [intros W; unfold drop; now rewrite (P4 W)|].
  split; [intros A; destruct (P5 A) as (X & Y & Z); repeat split; auto|].
  split.
  { intros A q0 B C D. destruct (P6 A q0 B C D) as (X & Y). split; [|assumption].
    intros k Hk. destruct (X k Hk) as [Q|Q]; [|auto].
    destruct (in_dec Nat.eq_dec k (c_bad (s_cli s))); [auto|]. left. apply In_drop. auto. }
  split; [|assumption].
  intros A. destruct (P7 A) as [B|[B|(B & C & D & X)]]; auto. right. right. repeat (split; [assumption|]).
  destruct (in_dec Nat.eq_dec 2 (c_bad (s_cli s))) as [Y|Y]; [auto|].
  destruct X as [X|X]; [|contradiction]. left. apply In_drop. auto.
Qed.

(** What makes [pl] a possible subject of a request to region [r]: it is the region's entry,
    or a new one. *)
Definition subject (s : st) (r : nat) (fresh : bool) (pl : pool) : Prop :=
  if fresh then g_pool (s_reg s r) = None /\ g_tag (s_reg s r) = false /\ g_fin (s_reg s r) = false /\
                pl = new_pool
  else g_pool (s_reg s r) = Some pl.

Lemma subject_pool_ok s r fresh pl : Inv s -> subject s r fresh pl -> pool_ok s r pl.
Proof.
  intros V. destruct fresh; cbn.
  - intros (_ & _ & _ & ->). now apply pool_ok_new.
  - now apply (i_pool s V).
Qed.

(** The new pool entry, and the reply. *)
Lemma inv_run s r q fresh pl pl' a :
  Inv s -> In (r, q) (s_sent s) -> works q -> subject s r fresh pl ->
  pool_ok s r pl' ->
  (forall k, In k (pl_run pl) -> ~ In k (c_bad (s_cli s)) -> In k (pl_run pl')) ->
  (pl_prep pl = true -> pl_prep pl' = true) ->
  (q_op q = RDml -> a = AOk -> In (q_seq q) (pl_run pl')) ->
  (q_op q = RPrep -> a = AOk -> pl_prep pl' = true /\ (c_auto (s_cli s) = true -> In 2 (pl_run pl'))) ->
  Inv (add_rep (r, q_op q, q_seq q, a) (with_reg r (set_pool (Some pl') (s_reg s r)) s)).
Proof.
  intros V Hi Hw Hs Hp Hk Hpp Ha Hb.
  assert (Hno : g_hist (s_reg s r) = []).
  { destruct fresh; cbn in Hs; [|eapply pool_no_hist; eauto].
    destruct Hs as (A & B & C & D). destruct (g_hist (s_reg s r)) eqn:Eh; [reflexivity|].
    assert (N : g_hist (s_reg s r) <> []) by (rewrite Eh; discriminate).
    destruct (i_hist s V r N) as (_ & X & _). congruence. }
  assert (V' : Inv (with_reg r (set_pool (Some pl') (s_reg s r)) s)).
  { apply inv_set_pool; try assumption.
    - destruct fresh; cbn in Hs; [tauto|]. intros X. congruence.
    - eauto.
    - intros pl0 E. destruct fresh; cbn in Hs.
      + destruct Hs as (X & _). congruence.
      + rewrite Hs in E. injection E as <-. auto. }
  assert (Hacc : r = p -> accounted p (with_reg r (set_pool (Some pl') (s_reg s r)) s) = true).
  { intros ->. apply accounted_iff. left. cbn. rewrite upd_same. cbn. eauto. }
  apply inv_rep; auto.
  - cbn [with_reg s_cli s_reg]. intros A B C D. right. rewrite upd_same. exists pl'.
    split; [reflexivity|]. rewrite <- D. auto.
  - cbn [with_reg s_cli s_reg]. intros A B k Hst Hb'. destruct (Hb A B) as (Hpr & Hau).
    change (sent_to s r k) in Hst.
    assert (Hd : doomed s -> doomed (with_reg r (set_pool (Some pl') (s_reg s r)) s)).
    { unfold doomed. cbn. cases_reg p r; cbn; tauto. }
    destruct (i_good s V r k Hst Hb') as [G|[(G & G2)|(G & ->)]].
    + destruct (i_comp s V r k Hst G Hb') as [D|[D|D]]; [auto| |].
      * right. left. rewrite upd_same. exists pl'. cbn. repeat split; auto.
        destruct D as (pl0 & E & Hin). destruct fresh; cbn in Hs; [destruct Hs; congruence|].
        rewrite Hs in E. injection E as <-. auto.
      * destruct D as (l & Hl & _). rewrite Hno in Hl. destruct Hl.
    + pose proof (i_sent s V r q Hi) as So. unfold sent_ok in So. rewrite A in So.
      destruct So as (_ & _ & _ & N & _).
      destruct G as [G|G]; [congruence|]. left. apply Hd. right. exact G.
    + right. left. rewrite upd_same. exists pl'. cbn. repeat split; auto.
  - intros -> A B. destruct (Hb A B) as (Hpr & _). right. left. exists pl'. cbn. rewrite upd_same. auto.
  - intros _ A. destruct Hw as [E|E]; congruence.
  - intros _ A. destruct Hw as [E|E]; congruence.
Qed.

(** [PREPARE]: the entry after the given-up statements are undone and the cached ones run. *)
Lemma prep_cached s r q fresh pl :
  Inv s -> In (r, q) (s_sent s) -> q_op q = RPrep -> subject s r fresh pl -> pl_seq pl < q_seq q ->
  let pl1 := run_cached (q_cached q) (undo (q_bad q) pl) in
  (c_auto (s_cli s) = false /\ pl1 = undo (c_bad (s_cli s)) pl) \/
  (c_auto (s_cli s) = true /\ pl_seq pl < 3 /\ incl (pl_run pl) [2] /\ pl_prep pl = false /\
   q_seq q = 3 /\
   (exists e, pl1 = mkPool false true 2 [2] (pl_logged pl) e) /\ c_bad (s_cli s) = [] /\ sent_to s r 2).
Proof.
  intros V Hi E Hs Hlt pl1.
  pose proof (i_sent s V r q Hi) as So. unfold sent_ok in So. rewrite E in So.
  destruct So as (Eq & _ & N1 & N2 & N3).
  assert (Po := subject_pool_ok s r fresh pl V Hs).
  destruct Po as (P1 & P2 & P3 & P4 & P5 & P6 & P7 & P8).
  assert (Eq1 : q_bad q = c_bad (s_cli s)) by (rewrite Eq; reflexivity).
  assert (Eq2 : q_cached q = if c_auto (s_cli s) then [2] else []) by (rewrite Eq; reflexivity).
  assert (Eq3 : q_seq q = c_n (s_cli s)) by (rewrite Eq; reflexivity).
  unfold pl1. rewrite Eq1, Eq2.
  destruct (c_auto (s_cli s)) eqn:Ea; [|left; auto].
  destruct (i_ph_n s V) as (_ & _ & N & _). specialize (N Ea).
  assert (Eb : c_bad (s_cli s) = []) by now apply (i_auto_bad s V).
  assert (Hst : sent_to s r 2) by (exists q; split; [assumption|right; rewrite Eq2; now left]).
  assert (E1 : pl_seq pl = 1 \/ (pl_seq pl = 2 /\ pl_prep pl = false /\ pl_wrote pl = true /\ In 2 (pl_run pl))).
  { destruct (P7 eq_refl) as [A|[A|(A & B & C & D)]]; [auto|lia|]. right. rewrite Eb in D.
    destruct D as [D|[]]. auto. }
  right. split; [reflexivity|]. split; [lia|].
  assert (Hin : incl (pl_run pl) [2]).
  { intros k Hk. destruct (P3 k Hk) as (A & _). left. lia. }
  split; [exact Hin|].
  split.
  { destruct (pl_prep pl) eqn:X; [|reflexivity]. exfalso. destruct (P5 eq_refl) as (_ & _ & [Y|(_ & Y)]); [lia|discriminate]. }
  split; [rewrite Eq3; exact N|]. split; [|split; assumption].
  rewrite Eb. destruct E1 as [E1|(E1 & E2 & E3 & E4)].
  - assert (Er : pl_run pl = []).
    { destruct (pl_run pl) as [|k t]; [reflexivity|]. exfalso.
      destruct (P3 k (or_introl eq_refl)) as (A & _). lia. }
    assert (Ep : pl_prep pl = false).
    { destruct (pl_prep pl) eqn:X; [|reflexivity]. exfalso. destruct (P5 eq_refl) as (_ & _ & [Y|(_ & Y)]); [lia|discriminate]. }
    exists false. unfold run_cached, undo. cbn. rewrite E1, Er, Ep. cbn. reflexivity.
  - exists (pl_err pl).
    assert (Er : pl_run pl = [2]).
    { destruct (pl_run pl) as [|k [|k' t]]; [destruct E4| |].
      - destruct (Hin k (or_introl eq_refl)) as [<-|[]]. reflexivity.
      - exfalso. inversion P2 as [|? ? _ F]. inversion F as [|? ? F1 _].
        destruct (P3 k (or_introl eq_refl)) as (A & _). destruct (P3 k' (or_intror (or_introl eq_refl))) as (A' & _). lia. }
    unfold run_cached, undo. cbn. rewrite E1, Er, E2, E3. cbn. reflexivity.
Qed.

Lemma pool_ok_prepared s r q fresh pl :
  Inv s -> In (r, q) (s_sent s) -> q_op q = RPrep -> subject s r fresh pl -> pl_seq pl < q_seq q ->
  let pl1 := run_cached (q_cached q) (undo (q_bad q) pl) in
  (pl_wrote pl1 = true -> pool_ok s r (run_prepare (q_seq q) pl1) /\ pool_ok s r (fail_prepare (q_seq q) pl1) /\
     pl_prep pl = false) /\
  (pl_wrote pl1 = false -> pool_ok s r (ro_prepare pl1) /\ pool_ok s r pl1 /\ c_auto (s_cli s) = false /\ pl_run pl = []) /\
  (forall k, In k (pl_run pl) -> ~ In k (c_bad (s_cli s)) -> In k (pl_run pl1)) /\
  (c_auto (s_cli s) = true -> In 2 (pl_run pl1)) /\
  (pool_ok s r pl1 /\ (pl_prep pl = true -> pl_prep pl1 = true)).
Proof.
  intros V Hi E Hs Hlt pl1.
  pose proof (i_sent s V r q Hi) as So. unfold sent_ok in So. rewrite E in So.
  destruct So as (Eq & _ & N1 & N2 & N3).
  assert (Po := subject_pool_ok s r fresh pl V Hs).
  assert (Eq1 : q_bad q = c_bad (s_cli s)) by (rewrite Eq; reflexivity).
  assert (Eq2 : q_cached q = if c_auto (s_cli s) then [2] else []) by (rewrite Eq; reflexivity).
  assert (Eq3 : q_seq q = c_n (s_cli s)) by (rewrite Eq; reflexivity).
  assert (Huq : forall q', In (r, q') (s_sent s) -> works q' -> q_seq q' = c_n (s_cli s) -> q' = q).
  { intros q' Hi' [W|W] Es.
    - pose proof (i_uniq s V r q' r q Hi' Hi W E). lia.
    - pose proof (i_sent s V r q' Hi') as So'. unfold sent_ok in So'. rewrite W in So'.
      destruct So' as (X & _). congruence. }
  destruct (prep_cached s r q fresh pl V Hi E Hs Hlt) as [(Ea & E1)|(Ea & Es & Er & Ep & E3 & (e & E1) & Eb & E2)].
  - fold pl1 in E1. assert (Po1 : pool_ok s r pl1) by (rewrite E1; apply pool_ok_undo; [apply incl_refl|assumption]).
    assert (Hnb : forall k, In k (pl_run pl1) -> ~ In k (c_bad (s_cli s))).
    { rewrite E1. cbn. intros k Hk. now apply In_drop in Hk. }
    assert (Hcar : forall k, carries q k -> False).
    { intros k [(X & _)|X]; [congruence|]. rewrite Eq2, Ea in X. destruct X. }
    assert (Hpw : pl_wrote pl1 = true -> pl_prep pl1 = false).
    { intros W. destruct (pl_prep pl1) eqn:X; [|reflexivity]. exfalso.
      destruct Po1 as (_ & _ & _ & _ & P5 & _). destruct (P5 X) as (_ & _ & [Y|(Y & _)]); [|congruence].
      rewrite E1 in Y. cbn in Y. lia. }
    destruct Po1 as (P1 & P2 & P3 & P4 & P5 & P6 & P7 & P8) eqn:Po1e. clear Po1e.
    assert (Hrun : forall k, In k (pl_run pl1) -> 2 <= k <= q_seq q /\ sent_to s r k).
    { intros k Hk. destruct (P3 k Hk) as (A & B). split; [lia|assumption]. }
    split; [|split; [|split; [|split; [intros X; congruence|split;
      [exact (conj P1 (conj P2 (conj P3 (conj P4 (conj P5 (conj P6 (conj P7 P8)))))))|rewrite E1; auto]]]]].
    + intros W. split; [|split].
      * unfold pool_ok. cbn [pl_seq pl_run pl_wrote pl_prep pl_err run_prepare].
        split; [lia|]. split; [assumption|]. split; [assumption|]. split; [congruence|].
        split; [intros _; split; [eauto|split; [assumption|left; assumption]]|].
        split; [|split; [congruence|right; right; exists q; repeat split; auto; now right]].
        intros _ q' A B C. rewrite Eq3 in C. rewrite (Huq q' A B C). split; [|reflexivity].
        intros k Hk. destruct (Hcar k Hk).
      * unfold pool_ok. cbn [pl_seq pl_run pl_wrote pl_prep pl_err fail_prepare].
        split; [lia|]. split; [assumption|]. split; [assumption|]. split; [congruence|].
        split; [intros X; rewrite (Hpw W) in X; discriminate|].
        split; [discriminate|split; [congruence|right; right; exists q; repeat split; auto; now right]].
      * specialize (Hpw W). rewrite E1 in Hpw. exact Hpw.
    + intros W. split; [|split; [|split; [assumption|]]].
      * unfold pool_ok. cbn [pl_seq pl_run pl_wrote pl_prep pl_err ro_prepare].
        split; [assumption|]. split; [assumption|]. split; [assumption|]. split; [assumption|].
        split; [intros _; split; [eauto|split; [assumption|right; auto]]|].
        split; [|split; [congruence|assumption]].
        intros A q' B C D. destruct (P6 A q' B C D). split; [assumption|reflexivity].
      * exact (conj P1 (conj P2 (conj P3 (conj P4 (conj P5 (conj P6 (conj P7 P8))))))).
      * destruct Po as (_ & _ & _ & Q4 & _). apply Q4. rewrite E1 in W. exact W.
    + rewrite E1. cbn. intros k Hk Hb. apply In_drop. auto.
  - fold pl1 in E1. rewrite E1.
    assert (Hc3 : c_n (s_cli s) = 3) by congruence.
    assert (Srt : StronglySorted lt [2]) by (repeat constructor).
    assert (Hrun : forall k, In k [2] -> 2 <= k <= q_seq q /\ sent_to s r k).
    { intros k [<-|[]]. split; [lia|assumption]. }
    split; [|split; [|split; [|split; [|split]]]].
    + intros _. split; [|split; [|assumption]].
      * unfold pool_ok. cbn [pl_seq pl_run pl_wrote pl_prep pl_err run_prepare].
        split; [lia|]. split; [assumption|]. split; [assumption|]. split; [congruence|].
        split; [intros _; split; [eauto|split; [rewrite Eb; auto|left; assumption]]|].
        split; [|split; [intros _; right; left; lia|right; right; exists q; repeat split; auto; now right]].
        intros _ q' A B C. rewrite Eq3 in C. rewrite (Huq q' A B C). split; [|reflexivity].
        intros k [(X & _)|X]; [congruence|]. rewrite Eq2, Ea in X. auto.
      * unfold pool_ok. cbn [pl_seq pl_run pl_wrote pl_prep pl_err fail_prepare].
        split; [lia|]. split; [assumption|]. split; [assumption|]. split; [congruence|].
        split; [discriminate|].
        split; [discriminate|split; [intros _; right; left; lia|right; right; exists q; repeat split; auto; now right]].
    + cbn. discriminate.
    + intros k Hk _. exact (Er k Hk).
    + intros _. now left.
    + unfold pool_ok. cbn [pl_seq pl_run pl_wrote pl_prep pl_err].
      split; [lia|]. split; [assumption|].
      split; [intros k [<-|[]]; split; [lia|assumption]|]. split; [discriminate|]. split; [discriminate|].
      split; [|split; [intros _; right; right; repeat split; left; now left|right; left; auto]].
      intros _ q' A B C. exfalso. pose proof (i_sent s V r q' A) as So'. unfold sent_ok in So'.
      destruct B as [B|B]; rewrite B in So'; [destruct So' as (_ & _ & _ & X & _); congruence|].
      destruct So' as (X & _). rewrite X in C. cbn in C. lia.
    + congruence.
Qed.

Lemma pool_ok_dml s r q fresh pl :
  Inv s -> In (r, q) (s_sent s) -> q_op q = RDml -> subject s r fresh pl -> pl_seq pl < q_seq q ->
  pl_prep pl = false ->
  pool_ok s r (run_dml (q_seq q) (undo (q_bad q) pl)).
Proof.
  intros V Hi E Hs Hlt Hnp.
  pose proof (i_sent s V r q Hi) as So. unfold sent_ok in So. rewrite E in So.
  destruct So as (N0 & N1 & N2 & N3 & N4).
  assert (Po := pool_ok_undo s r (q_bad q) pl N2 (subject_pool_ok s r fresh pl V Hs)).
  destruct Po as (P1 & P2 & P3 & P4 & P5 & P6 & P7 & P8).
  unfold pool_ok. cbn [pl_seq pl_run pl_wrote pl_prep pl_err run_dml] in *.
  assert (Hst : sent_to s r (q_seq q)) by (exists q; split; [assumption|left; auto]).
  split; [lia|]. split.
  { apply sorted_app; [assumption|]. intros k Hk. destruct (P3 k Hk) as (A & _). cbn in A. lia. }
  split.
  { intros k Hk. apply in_app_or in Hk. destruct Hk as [Hk|[<-|[]]].
    - destruct (P3 k Hk) as (A & B). cbn in A. split; [lia|assumption].
    - split; [lia|assumption]. }
  split; [discriminate|]. split; [cbn; congruence|].
  split; [|split; [congruence|right; right; exists q; repeat split; auto; now left]].
  intros _ q' A B C. split.
  - intros k Hk. destruct B as [B|B].
    + pose proof (i_sent s V r q' A) as So'. unfold sent_ok in So'. rewrite B in So'. destruct So' as (X & _).
      destruct Hk as [(_ & Hk)|Hk]; [|rewrite X in Hk; destruct Hk].
      left. apply in_or_app. right. left. congruence.
    + pose proof (i_uniq s V r q r q' Hi A E B). lia.
  - intros B'. pose proof (i_uniq s V r q r q' Hi A E B'). lia.
Qed.

(** A committed primary makes every participant's acknowledged statements prepared. *)
Lemma unprepared_empty s r pl k :
  Inv s -> c_dec (s_cli s) = true -> g_pool (s_reg s r) = Some pl -> pl_prep pl = false ->
  In k (pl_run pl) -> In k (c_bad (s_cli s)) \/ doomed s.
Proof.
  intros V Hd E Hp Hk.
  destruct (in_dec Nat.eq_dec k (c_bad (s_cli s))) as [B|B]; [auto|]. right.
  destruct (i_pool s V r pl E) as (_ & _ & P3 & _). destruct (P3 k Hk) as (_ & Hst).
  assert (Hpt : In r (c_parts (s_cli s))).
  { destruct Hst as (q & Hi & Hc). pose proof (i_sent s V r q Hi) as So. unfold sent_ok in So.
    destruct (q_op q) eqn:Eo.
    - apply (proj2 (i_parts s V (or_intror Hd)) r q Hi Eo).
    - now destruct So as (_ & X & _).
    - now destruct So as (_ & _ & _ & X & _).
    - destruct So as (_ & X & _). destruct Hc as [(Y & _)|Y]; [discriminate|]. rewrite X in Y. destruct Y. }
  pose proof (i_dec s V Hd r Hpt) as Hr.
  destruct (i_ack s V r _ Hr k Hst B) as [D|[(pl0 & E0 & Y & _)|(l & Hl & _)]]; [assumption| |].
  - rewrite E in E0. injection E0 as <-. congruence.
  - rewrite (pool_no_hist s r pl V E) in Hl. destruct Hl.
Qed.

Lemma doomed_reg s r g' :
  (g_tag (s_reg s r) = true -> g_tag g' = true) -> doomed s -> doomed (with_reg r g' s).
Proof. unfold doomed. cbn. cases_reg p r; tauto. Qed.

Lemma inv_commit_pool s r pl :
  Inv s -> g_pool (s_reg s r) = Some pl -> c_dec (s_cli s) = true -> (r <> p -> comm s p) ->
  keeps_track p s (with_reg r (fst (commit_pool pl (s_reg s r))) s) = true ->
  Inv (with_reg r (fst (commit_pool pl (s_reg s r))) s).
Proof.
  intros V E Hd Hc Hk. unfold commit_pool in *.
  destruct (pl_wrote pl) eqn:W; cbn [negb] in *.
  - destruct (pl_prep pl) eqn:P; cbn [fst] in *.
    + apply inv_commit; auto.
    + apply inv_drop; auto. intros k Hi.
      destruct (unprepared_empty s r pl k V Hd E P Hi) as [B|B]; [auto|right].
      apply doomed_reg; [|exact B]. cbn. intros ->. reflexivity.
  - apply inv_commit; auto.
Qed.

Lemma inv_rollback_pool s r pl :
  Inv s -> g_pool (s_reg s r) = Some pl ->
  keeps_track p s (with_reg r (fst (rollback_pool pl (s_reg s r))) s) = true ->
  (r = p \/ doomed s \/ (c_dec (s_cli s) = true /\ pl_prep pl = false)) ->
  Inv (with_reg r (fst (rollback_pool pl (s_reg s r))) s).
Proof.
  intros V E Hk Hw. unfold rollback_pool in *.
  destruct (i_pool s V r pl E) as (_ & _ & _ & P4 & _).
  assert (Hd : forall t, doomed s -> doomed (with_reg r (end_txn false t true (pl_run pl) (s_reg s r)) s)).
  { intros t. apply doomed_reg. cbn. intros ->. reflexivity. }
  destruct (pl_wrote pl) eqn:W; cbn [negb fst] in *.
  - assert (Hdt : r = p -> doomed (with_reg r (end_txn false true true (pl_run pl) (s_reg s r)) s)).
    { intros ->. left. cbn. rewrite upd_same. cbn. apply orb_true_r. }
    apply inv_drop; auto.
    + intros k Hi. destruct Hw as [->|[Hw|(D & P)]]; [auto|auto|].
      destruct (unprepared_empty s r pl k V D E P Hi); auto.
    + destruct Hw as [->|[Hw|(D & P)]]; auto.
  - apply inv_drop; auto.
    + rewrite (P4 eq_refl). intros k [].
    + destruct Hw as [->|[Hw|(D & P)]]; [|auto|auto].
      unfold keeps_track in Hk.
      assert (A1 : accounted p s = true) by (apply accounted_iff; left; eauto).
      assert (A2 : accounted p (with_reg p (end_txn false false true (pl_run pl) (s_reg s p)) s) = false).
      { destruct (accounted p (with_reg p (end_txn false false true (pl_run pl) (s_reg s p)) s)) eqn:X; [|reflexivity].
        apply accounted_iff in X. unfold comm in X. cbn in X. rewrite upd_same in X. cbn in X.
        rewrite (pool_no_hist s p pl V E), (pool_no_tag s p pl V E) in X.
        destruct X as [(? & X)|[X|(l & [X|[]])]]; discriminate. }
      rewrite A1, A2 in Hk. cbn in Hk. rewrite upd_same in Hk. cbn in Hk.
      rewrite orb_true_r in Hk. cbn in Hk. apply andb_true_iff in Hk. destruct Hk as (_ & Hk).
      apply phase_eqb_eq in Hk.
      destruct (c_dec (s_cli s)) eqn:Dc; [auto|]. left. apply Hd. right. auto.
Qed.

(** ** Delivery *)

Lemma keeps_track_rep s s' e : keeps_track p s (add_rep e s') = keeps_track p s s'.
Proof. reflexivity. Qed.

Lemma dec_primed s : Inv s -> c_dec (s_cli s) = true -> primed p s = true.
Proof.
  intros V D. pose proof (i_dec s V D p (proj1 (i_parts s V (or_intror D)))) as Hr.
  apply primed_iff. exists RPrep, (c_n (s_cli s)), AOk. auto.
Qed.

(** COMMIT answered by a primary that no longer has the transaction. *)
Lemma absent_com s : Inv s -> c_dec (s_cli s) = true -> g_pool (s_reg s p) = None ->
  g_tag (s_reg s p) = false -> comm s p.
Proof.
  intros V D E T.
  assert (A : accounted p s = true).
  { apply (i_live1 s V); [|now apply dec_primed].
    intros X. pose proof (i_ph_ab s V X D). congruence. }
  apply accounted_iff in A. destruct A as [(pl & A)|[A|A]]; congruence || assumption.
Qed.

Lemma inv_run_req s r q f fresh pl :
  Inv s -> In (r, q) (s_sent s) -> subject s r fresh pl -> pl_seq pl < q_seq q ->
  (fresh = true -> works q) ->
  (q_op q = RDml -> f = FOk -> pl_prep pl = false) ->
  let res := run_req fresh q f pl (s_reg s r) in
  let s' := add_rep (r, q_op q, q_seq q, snd res) (with_reg r (fst res) s) in
  keeps_track p s s' = true ->
  Inv s'.
Proof.
  intros V Hi Hs Hlt Hw Hh res s' Hk.
  pose proof (i_sent s V r q Hi) as So. unfold sent_ok in So.
  assert (Po := subject_pool_ok s r fresh pl V Hs).
  assert (Serr : forall g, fst res = g -> snd res = AErr -> g = s_reg s r -> Inv s').
  { intros g X Y Z. unfold s'. rewrite X, Y, Z. apply deliver_same; auto; try discriminate.
    intros _ _ [B|B]; discriminate. }
  assert (Hnone : g_pool (s_reg s r) = None -> set_pool None (s_reg s r) = s_reg s r).
  { unfold set_pool. destruct (s_reg s r) as [a b c d]. cbn. intros ->. reflexivity. }
  destruct (q_op q) eqn:E.
  - (* a statement *)
    assert (W : works q) by now left.
    destruct So as (S0 & S1 & S2 & S3 & S4).
    assert (Hm : forall k, In k (pl_run pl) -> ~ In k (c_bad (s_cli s)) -> In k (pl_run (undo (q_bad q) pl))).
    { cbn. intros k A B. apply In_drop. split; [assumption|]. intros C. apply B. now apply S2. }
    destruct f as [|d k| | |].
    + unfold s', res. unfold run_req. rewrite E. cbn [fst snd]. rewrite <- E.
      apply (inv_run s r q fresh pl); auto.
      * eapply pool_ok_dml; eauto.
      * cbn. intros k A B. apply in_or_app. left. exact (Hm k A B).
      * intros _ _. cbn. apply in_or_app. right. now left.
      * rewrite E. discriminate.
    + unfold s', res in *. unfold run_req in *. rewrite E in *. cbn [fst snd] in *.
      destruct (fresh && negb k) eqn:Ef.
      * apply andb_true_iff in Ef. destruct Ef as (-> & _). cbn in Hs. destruct Hs as (X & _).
        eapply Serr; eauto.
      * rewrite <- E. destruct d.
        -- apply (inv_run s r q fresh pl); auto; try discriminate. now apply pool_ok_undo.
        -- apply (inv_run s r q fresh pl); auto; try discriminate.
    + unfold s', res. unfold run_req. rewrite E. cbn [fst snd]. rewrite <- E.
      apply (inv_run s r q fresh pl); auto; try discriminate. now apply pool_ok_undo.
    + eapply Serr; unfold res, run_req; rewrite E; reflexivity.
    + eapply Serr; unfold res, run_req; rewrite E; reflexivity.
  - (* PREPARE *)
    assert (W : works q) by now right.
    destruct So as (S0 & S1 & S2 & S3 & S4).
    destruct (pool_ok_prepared s r q fresh pl V Hi E Hs Hlt) as (Q1 & Q2 & Q3 & Q4 & Q5 & Q6).
    set (pl1 := run_cached (q_cached q) (undo (q_bad q) pl)) in *.
    destruct f as [|d k| | |].
    + unfold s', res. unfold run_req. rewrite E. fold pl1.
      destruct (pl_wrote pl1) eqn:Wr; cbn [negb fst snd]; rewrite <- E.
      * destruct (Q1 eq_refl) as (A & B & C).
        apply (inv_run s r q fresh pl); auto; rewrite ?E; try discriminate.
      * destruct (Q2 eq_refl) as (A & B & C & D).
        apply (inv_run s r q fresh pl); auto; rewrite ?E; try discriminate.
    + unfold s', res in *. unfold run_req in *. rewrite E in *. cbn [fst snd] in *.
      destruct (fresh && negb k) eqn:Ef.
      * apply andb_true_iff in Ef. destruct Ef as (-> & _). cbn in Hs. destruct Hs as (X & _).
        eapply Serr; eauto.
      * rewrite <- E. destruct d.
        -- apply (inv_run s r q fresh pl); auto; try discriminate.
           ++ apply pool_ok_undo; [|assumption]. rewrite S0. apply incl_refl.
           ++ cbn. intros k0 A B. apply In_drop. split; [assumption|]. rewrite S0. exact B.
        -- apply (inv_run s r q fresh pl); auto; try discriminate.
    + eapply Serr; unfold res, run_req; rewrite E; reflexivity.
    + unfold s', res. unfold run_req. rewrite E. fold pl1.
      destruct (pl_wrote pl1) eqn:Wr; cbn [negb fst snd]; rewrite <- E.
      * destruct (Q1 eq_refl) as (A & B & C).
        apply (inv_run s r q fresh pl); auto; rewrite ?E; try discriminate; try congruence.
      * destruct (Q2 eq_refl) as (A & B & C & D).
        apply (inv_run s r q fresh pl); auto; rewrite ?E; try discriminate.
    + unfold s', res. unfold run_req. rewrite E. fold pl1. cbn [fst snd]. rewrite <- E.
      apply (inv_run s r q fresh pl); auto; rewrite ?E; try discriminate.
  - (* COMMIT *)
    destruct fresh; [destruct (Hw eq_refl); congruence|]. cbn in Hs.
    destruct So as (S0 & S1 & S2 & S3 & S4).
    destruct f as [|d k| | |]; try (eapply Serr; unfold res, run_req; rewrite E; reflexivity).
    unfold s' in *. unfold res in *. unfold run_req in *. rewrite E in *.
    rewrite keeps_track_rep in Hk.
    assert (V' := inv_commit_pool s r pl V Hs S2 S4 Hk). rewrite <- E.
    apply inv_rep; auto; rewrite ?E; try discriminate.
    + intros _ [X|X]; congruence.
    + intros -> _ A. unfold commit_pool in *.
      destruct (pl_wrote pl), (pl_prep pl); cbn [negb fst snd] in *; try discriminate;
        exists (pl_run pl); cbn; rewrite upd_same; cbn; apply in_or_app; right; now left.
    + intros -> _ A. unfold commit_pool in A. destruct (pl_wrote pl), (pl_prep pl); discriminate.
  - (* ROLLBACK *)
    destruct fresh; [destruct (Hw eq_refl); congruence|]. cbn in Hs.
    destruct So as (S0 & S1 & S2 & S3).
    destruct f as [|d k| | |]; try (eapply Serr; unfold res, run_req; rewrite E; reflexivity).
    unfold s' in *. unfold res in *. unfold run_req in *. rewrite E in *.
    rewrite keeps_track_rep in Hk.
    assert (V' : Inv (with_reg r (fst (rollback_pool pl (s_reg s r))) s)).
    { apply inv_rollback_pool; auto. destruct (Nat.eq_dec r p); auto. }
    rewrite <- E. apply inv_rep; auto; rewrite ?E; try discriminate. intros _ [X|X]; congruence.
Qed.

Lemma inv_deliver s i r q f :
  Inv s -> nth_error (s_sent s) i = Some (r, q) ->
  harmless p (ADeliver i f) s = true ->
  let res := handle (r =? p) q f (s_reg s r) in
  let s' := add_rep (r, q_op q, q_seq q, snd res) (with_reg r (fst res) s) in
  keeps_track p s s' = true ->
  Inv s'.
Proof.
  intros V Hn Hh res s' Hk.
  assert (Hi : In (r, q) (s_sent s)) by (eapply nth_error_In; eauto).
  pose proof (i_sent s V r q Hi) as So. unfold sent_ok in So.
  unfold s', res, handle in *.
  destruct (g_pool (s_reg s r)) as [pl|] eqn:E.
  - destruct (q_seq q <=? pl_seq pl) eqn:Eq.
    + (* answered from the stored response *)
      apply Nat.leb_le in Eq. cbn [fst snd].
      destruct (i_pool s V r pl E) as (P1 & P2 & P3 & P4 & P5 & P6 & P7 & P8).
      destruct (pl_err pl) eqn:Er.
      { apply deliver_same; auto; try discriminate. intros _ _ [B|B]; discriminate. }
      apply deliver_same; auto.
      * intros -> _ _ _. apply accounted_iff. eauto.
      * intros A B _ D. right. exists pl. split; [assumption|].
        assert (X : q_seq q = pl_seq pl) by lia.
        destruct (P6 eq_refl q Hi (or_introl B) X) as (Y & _).
        destruct (Y (q_seq q) (or_introl (conj B eq_refl))) as [Z|Z]; [congruence|].
        exfalso. apply (i_bad_cur s V A). congruence.
      * intros A _ k Hst Hb. rewrite A in So. destruct So as (S0 & S1 & S2 & S3 & S4).
        assert (X : q_seq q = pl_seq pl) by (rewrite S0 in *; cbn in *; lia).
        destruct (P6 eq_refl q Hi (or_intror A) X) as (Y & Z).
        destruct (i_good s V r k Hst Hb) as [G|[(G & G2)|(G & ->)]].
        -- destruct (i_comp s V r k Hst G Hb) as [D|[(pl0 & D1 & D2)|D]]; auto.
           right. left. rewrite E in D1. injection D1 as <-. exists pl. auto.
        -- destruct G as [G|G]; [congruence|]. left. right. exact G.
        -- right. left. exists pl. split; [assumption|]. split; [auto|].
           destruct (Y 2) as [R|R]; [|assumption|contradiction].
           right. rewrite S0. cbn. rewrite G. now left.
      * intros -> A _. rewrite A in So. destruct So as (S0 & S1 & S2 & S3 & S4).
        assert (X : q_seq q = pl_seq pl) by (rewrite S0 in *; cbn in *; lia).
        destruct (P6 eq_refl q Hi (or_intror A) X) as (Y & Z). right. left. exists pl. auto.
      * intros -> A. rewrite A in So. lia.
      * discriminate.
    + apply Nat.leb_gt in Eq. apply (inv_run_req s r q f false pl); auto; try discriminate.
      intros A ->. cbn in Hh. rewrite Hn in Hh. destruct q as [o n b ca]. cbn in A, Eq. subst o.
      rewrite E in Hh. destruct (pl_prep pl); [|reflexivity]. cbn in Hh. apply Nat.leb_le in Hh. lia.
  - destruct (g_tag (s_reg s r)) eqn:T.
    { cbn [fst snd]. apply deliver_same; auto; try discriminate.
      - intros _ _ [B|B]; discriminate.
      - intros -> _ _. assumption. }
    assert (Hcom : r = p -> q_op q = RCom -> comm s p).
    { intros -> A. rewrite A in So. apply absent_com; auto. tauto. }
    destruct (g_fin (s_reg s r)) eqn:F.
    { (* finished here *)
      cbn [fst snd]. pose proof (i_fin s V r F) as HF. apply deliver_same; auto; try discriminate.
      - intros -> _ _ N. destruct HF as [[X|(X & _)]|D]; [congruence|congruence|].
        apply (i_live1 s V N). now apply dec_primed.
      - intros A _ _ _. destruct HF as [[X|(X & _)]|D]; [auto|congruence|].
        destruct (i_ph_run s V (or_intror A)). congruence.
      - intros A _ k Hst Hb. destruct HF as [D|D]; [auto|]. rewrite A in So.
        apply (i_ack s V r (c_n (s_cli s))); auto. apply (i_dec s V D). tauto.
      - intros -> A _. destruct HF as [D|D]; [auto|]. rewrite A in So.
        apply (i_ackp s V (c_n (s_cli s))). apply (i_dec s V D). tauto. }
    assert (Hfresh : subject s r true new_pool) by (cbn; auto).
    assert (Hseq : works q -> pl_seq new_pool < q_seq q).
    { intros [A|A]; rewrite A in So; cbn; [lia|]. destruct So as (S0 & _ & _ & _ & S4). rewrite S0. cbn. lia. }
    destruct (q_op q) eqn:Eo.
    + unfold res, s' in *. rewrite <- Eo. apply (inv_run_req s r q f true new_pool); auto.
      * apply Hseq. now left.
      * intros _. now left.
    + unfold res, s' in *. rewrite <- Eo. apply (inv_run_req s r q f true new_pool); auto.
      * apply Hseq. now right.
      * intros _. now right.
    + cbn [fst snd]. rewrite <- Eo. apply deliver_same; auto; rewrite ?Eo; try discriminate.
      intros _ [X|X]; congruence.
    + cbn [fst snd].
      assert (Hf : doomed s \/ c_dec (s_cli s) = true).
      { destruct So as (_ & _ & [A|A] & _).
        - destruct (c_dec (s_cli s)) eqn:D; [auto|]. left. right. auto.
        - right. apply (i_ph_dec s V). auto. }
      destruct (r =? p).
      * rewrite <- Eo. apply inv_rep; auto; rewrite ?Eo; try discriminate.
        -- now apply inv_mark.
        -- intros _ [X|X]; congruence.
      * rewrite <- Eo. apply deliver_same; auto; rewrite ?Eo; try discriminate. intros _ [X|X]; congruence.
Qed.

(** ** Questions, answers and time-outs *)

Lemma inv_timeout s :
  Inv s -> keeps_track p s (with_reg p (self_end false (s_reg s p)) s) = true ->
  Inv (with_reg p (self_end false (s_reg s p)) s).
Proof.
  intros V. unfold self_end. destruct (g_pool (s_reg s p)) as [pl|] eqn:E; intros Hk.
  - apply inv_rollback_pool; auto.
  - now apply inv_same.
Qed.

Lemma inv_ask s r pl :
  Inv s -> r <> p -> g_pool (s_reg s r) = Some pl ->
  Inv (mkSt (s_reg s) (s_sent s) (s_rep s) ((r, pl_prep pl) :: s_qry s) (s_ans s) (s_cli s)).
Proof.
  intros V Hr E.
  assert (C : contacted s).
  { destruct (i_out s V r pl E) as (q & A & B). exists r, q. auto. }
  destruct V. constructor; try assumption.
  intros x b [X|X]; [injection X as <- <-; auto|]. eapply i_qry0; eauto.
Qed.

Lemma inv_answer s r b :
  Inv s -> In (r, b) (s_qry s) -> g_pool (s_reg s p) = None ->
  Inv (mkSt (s_reg s) (s_sent s) (s_rep s) (s_qry s)
         ((r, if g_tag (s_reg s p) then SRolled else if b then SCommitted else SBegined) :: s_ans s)
         (s_cli s)).
Proof.
  intros V Hi E.
  destruct (i_qry s V r b Hi) as (N & C). destruct (i_live2 s V C) as (_ & A).
  apply accounted_iff in A.
  assert (B : match (if g_tag (s_reg s p) then SRolled else if b then SCommitted else SBegined) with
              | SRolled => g_tag (s_reg s p) = true | _ => comm s p end).
  { destruct (g_tag (s_reg s p)) eqn:T; [reflexivity|].
    assert (K : comm s p) by (destruct A as [(pl & A)|[A|A]]; congruence || assumption).
    destruct b; exact K. }
  destruct V. constructor; try assumption.
  intros x a [X|X]; [|eapply i_ans0; eauto]. injection X as <- <-. split; [assumption|]. exact B.
Qed.

Lemma inv_obey s i r a :
  Inv s -> nth_error (s_ans s) i = Some (r, a) -> harmless p (AObey i) s = true ->
  let s' := with_reg r (self_end (match a with SCommitted => true | _ => false end) (s_reg s r)) s in
  keeps_track p s s' = true -> Inv s'.
Proof.
  intros V Hn Hh s' Hk.
  assert (Hi : In (r, a) (s_ans s)) by (eapply nth_error_In; eauto).
  destruct (i_ans s V r a Hi) as (N & A).
  unfold s', self_end in *. destruct (g_pool (s_reg s r)) as [pl|] eqn:E; [|now apply inv_same].
  destruct a.
  - apply inv_commit_pool; auto. now apply (i_comm s V p).
  - apply inv_rollback_pool; auto. right. left. left. exact A.
  - apply inv_rollback_pool; auto. right. right. split; [now apply (i_comm s V p)|].
    cbn in Hh. rewrite Hn, E in Hh. now destruct (pl_prep pl).
Qed.

(** ** The server *)

Lemma inv_send s r : Inv s -> may_send p r s = true -> Inv (add_sent (r, cur_req (s_cli s)) s).
Proof.
  intros V Hm. set (q := cur_req (s_cli s)). set (s' := add_sent (r, q) s).
  destruct (i_ph_n s V) as (N1 & N2 & N3 & N4 & N5).
  assert (Hph : c_ph (s_cli s) <> PRun) by (intros X; unfold may_send in Hm; rewrite X in Hm; discriminate).
  assert (Cm : contacted s -> contacted s').
  { intros (x & q0 & A & B). exists x, q0. split; [now right|assumption]. }
  assert (Sm : forall x k, sent_to s x k -> sent_to s' x k).
  { intros x k (q0 & A & B). exists q0. split; [now right|assumption]. }
  (* what the new request is *)
  assert (Hq : sent_ok s r q).
  { unfold sent_ok, q, cur_req, may_send in *. destruct (c_ph (s_cli s)) eqn:P; cbn.
    - contradiction.
    - split; [reflexivity|]. split; [specialize (N2 eq_refl); lia|]. split; [apply incl_refl|].
      split; [apply (i_ph_run s V); auto|congruence].
    - apply andb_true_iff in Hm. destruct Hm as (Hm & _). apply memb_In in Hm.
      split; [reflexivity|]. split; [assumption|]. repeat split; try congruence. auto.
    - apply Nat.eqb_eq in Hm. assert (D : c_dec (s_cli s) = true) by (apply (i_ph_dec s V); auto).
      repeat split; auto; [|congruence]. subst r. apply (i_parts s V). auto.
    - apply memb_In in Hm. assert (D : c_dec (s_cli s) = true) by (apply (i_ph_dec s V); auto).
      repeat split; auto. intros _. apply (i_told_ph s V). assumption.
    - repeat split; auto. intros _. destruct (c_dec (s_cli s)) eqn:D.
      + left. now apply (i_ph_ab s V).
      + right. auto.
    - apply Nat.eqb_eq in Hm. repeat split; auto. congruence. }
  assert (Hc : contacted s' -> contacted s \/ (r <> p /\ (c_ph (s_cli s) = PStmt \/ c_ph (s_cli s) = PPrep) /\ primed p s = true)).
  { intros (x & q0 & [A|A] & B & C); [|left; exists x, q0; auto]. injection A as <- <-. right.
    split; [assumption|].
    assert (P : c_ph (s_cli s) = PStmt \/ c_ph (s_cli s) = PPrep).
    { unfold works, q, cur_req in C. destruct (c_ph (s_cli s)); cbn in C; destruct C as [C|C]; try discriminate; auto. }
    split; [assumption|]. unfold may_send in Hm. apply Nat.eqb_neq in B.
    destruct P as [P|P]; rewrite P in Hm; rewrite B in Hm; cbn in Hm.
    - exact Hm.
    - apply andb_true_iff in Hm. apply Hm. }
  assert (Hs : forall x k, sent_to s' x k -> sent_to s x k \/
            (x = r /\ carries q k /\
             ((c_ph (s_cli s) = PStmt /\ k = c_n (s_cli s)) \/
              (c_ph (s_cli s) = PPrep /\ c_auto (s_cli s) = true /\ k = 2)))).
  { intros x k (q0 & [A|A] & B); [|left; exists q0; auto]. injection A as <- <-. right.
    split; [reflexivity|]. split; [exact B|]. unfold carries, q, cur_req in B.
    destruct (c_ph (s_cli s)); cbn in B; destruct B as [(B1 & B2)|B]; try discriminate; try contradiction.
    - left. auto.
    - right. destruct (c_auto (s_cli s)); [|contradiction]. destruct B as [<-|[]]. auto. }
  assert (Eso : forall x q0, sent_ok s x q0 -> sent_ok s' x q0) by (intros x q0 X; exact X).
  constructor; change (s_cli s') with (s_cli s); change (s_reg s') with (s_reg s);
    change (s_rep s') with (s_rep s); change (s_qry s') with (s_qry s);
    change (s_ans s') with (s_ans s); change (accounted p s') with (accounted p s);
    change (primed p s') with (primed p s).
  - apply (i_hist s V).
  - apply (i_tag s V).
  - intros x pl E. destruct (i_out s V x pl E) as (q0 & A & B). exists q0. split; [now right|assumption].
  - apply (i_live1 s V).
  - intros A. destruct (Hc A) as [B|(B1 & B2 & B3)]; [now apply (i_live2 s V)|]. split; [assumption|].
    apply (i_live1 s V); [|assumption]. destruct B2; congruence.
  - apply (i_comm s V).
  - apply (i_fin s V).
  - intros x b Hi. destruct (i_qry s V x b Hi). auto.
  - apply (i_ans s V).
  - intros x q0 [A|A]; [injection A as <- <-; now apply Eso|]. apply Eso. now apply (i_sent s V).
  - intros x q0 x' q0' [A|A] [B|B] O1 O2.
    + injection A as <- <-. injection B as <- <-. congruence.
    + injection A as <- <-. pose proof (i_sent s V x' q0' B) as So. unfold sent_ok in So. rewrite O2 in So.
      exfalso. destruct So as (_ & _ & X & Y & _). unfold q, cur_req in O1.
      destruct (c_ph (s_cli s)); cbn in O1; try discriminate; congruence.
    + injection B as <- <-. pose proof (i_sent s V x q0 A) as So. unfold sent_ok in So. rewrite O1 in So.
      destruct So as (_ & _ & _ & _ & X). unfold q, cur_req in *.
      destruct (c_ph (s_cli s)); cbn in O2; try discriminate. cbn. auto.
    + exact (i_uniq s V x q0 x' q0' A B O1 O2).
  - apply (i_ph_run s V).
  - apply (i_ph_prep s V).
  - apply (i_ph_dec s V).
  - apply (i_ph_ab s V).
  - apply (i_ph_n s V).
  - apply (i_bad s V).
  - apply (i_bad_cur s V).
  - apply (i_auto_bad s V).
  - apply (i_auto_good s V).
  - intros A. destruct (i_parts s V A) as (B & C). split; [assumption|].
    intros x q0 [X|X] O; [|eapply C; eauto]. injection X as <- <-. exfalso.
    unfold q, cur_req in O. destruct (c_ph (s_cli s)) eqn:P; cbn in O; try discriminate.
    destruct A as [A|A]; [discriminate|]. destruct (i_ph_run s V) as (Y & _); [auto|congruence].
  - apply (i_dec s V).
  - intros x k A B. destruct (Hs x k A) as [C|(C1 & C2 & [(C3 & C4)|(C3 & C4 & C5)])].
    + now apply (i_good s V x).
    + right. left. auto.
    + right. right. auto.
  - apply (i_good_n s V).
  - intros x pl E. destruct (i_pool s V x pl E) as (P1 & P2 & P3 & P4 & P5 & P6 & P7 & P8).
    assert (P8' : pl_seq pl = 1 \/ (c_auto (s_cli s) = true /\ pl_seq pl = 2) \/
        exists q0, In (x, q0) (s_sent s') /\ works q0 /\ q_seq q0 = pl_seq pl).
    { destruct P8 as [P8|[P8|(q0 & A & B)]]; [auto|auto|]. right. right. exists q0. split; [now right|assumption]. }
    unfold pool_ok. change (s_cli s') with (s_cli s).
    split; [assumption|]. split; [assumption|].
    split; [intros k Hk; destruct (P3 k Hk); auto|]. split; [assumption|].
    split.
    { intros A. destruct (P5 A) as ((q0 & B & C) & D). split; [|assumption]. exists q0. split; [now right|assumption]. }
    split; [|split; assumption].
    intros A q0 [B|B] C D; [|exact (P6 A q0 B C D)]. injection B as <- <-.
    (* the entry was last used by this very request *)
    assert (W2 : 2 <= q_seq q).
    { unfold sent_ok in Hq. destruct C as [C|C]; rewrite C in Hq; [lia|]. destruct Hq as (X & _ & _ & _ & Y). rewrite X. cbn. lia. }
    destruct P8 as [P8|[(P8 & P9)|(q1 & F1 & F2 & F3)]]; [lia| |].
    { exfalso. unfold sent_ok in Hq. destruct (i_ph_n s V) as (_ & _ & N & _). specialize (N P8).
      destruct C as [C|C]; rewrite C in Hq; [destruct Hq as (_ & _ & _ & X & _); congruence|].
      destruct Hq as (X & _). rewrite X in D. cbn in D. lia. }
    assert (Ek : forall k, carries q k -> carries q1 k).
    { pose proof (i_sent s V r q1 F1) as S1. unfold sent_ok in S1, Hq. intros k Hk.
      destruct F2 as [F2|F2]; rewrite F2 in S1; destruct C as [C|C]; rewrite C in Hq.
      - left. destruct Hk as [(_ & Hk)|Hk]; [split; [assumption|congruence]|].
        destruct Hq as (X & _). rewrite X in Hk. destruct Hk.
      - exfalso. destruct S1 as (_ & _ & _ & _ & S1). destruct Hq as (X & _ & _ & _).
        assert (PP : c_ph (s_cli s) = PPrep).
        { unfold q, cur_req in C. destruct (c_ph (s_cli s)); cbn in C; try discriminate. reflexivity. }
        specialize (S1 PP). assert (q_seq q = c_n (s_cli s)) by (rewrite X; reflexivity). lia.
      - exfalso. destruct S1 as (_ & _ & X & Y & _). unfold q, cur_req in C.
        destruct (c_ph (s_cli s)); cbn in C; try discriminate; congruence.
      - destruct S1 as (S1 & _). destruct Hq as (Hq & _). rewrite S1. rewrite <- Hq. exact Hk. }
    assert (Eo : q_op q = RPrep -> q_op q1 = RPrep).
    { intros O. destruct F2 as [F2|F2]; [|assumption]. exfalso.
      pose proof (i_sent s V r q1 F1) as S1. unfold sent_ok in S1. rewrite F2 in S1. destruct S1 as (_ & _ & _ & _ & S1).
      assert (PP : c_ph (s_cli s) = PPrep).
      { unfold q, cur_req in O. destruct (c_ph (s_cli s)); cbn in O; try discriminate. reflexivity. }
      specialize (S1 PP).
      assert (q_seq q = c_n (s_cli s)) by (unfold q, cur_req; rewrite PP; reflexivity). lia. }
    destruct (P6 A q1 F1 F2) as (G1 & G2); [congruence|]. split.
    + intros k Hk. auto.
    + auto.
  - intros x k A B C. destruct (Hs x k A) as [D|(D1 & D2 & [(D3 & D4)|(D3 & D4 & D5)])].
    + exact (i_comp s V x k D B C).
    + exfalso. destruct (i_good_n s V k B) as (_ & X). specialize (X D3). lia.
    + exfalso. rewrite (i_auto_good s V D4) in B. destruct B.
  - intros x A B C. apply (i_stmt s V x); auto.
    destruct (i_rep s V x RDml _ AOk C) as (q0 & D & E & F). exists q0. split; [assumption|]. left. auto.
  - intros x n Hi k A B. apply (i_ack s V x n Hi k); [|assumption].
    destruct (Hs x k A) as [D|(D1 & D2 & D3)]; [assumption|].
    destruct (i_rep s V x RPrep n AOk Hi) as (q0 & F1 & F2 & F3).
    pose proof (i_sent s V x q0 F1) as S1. unfold sent_ok in S1. rewrite F2 in S1.
    destruct S1 as (S1 & _ & _ & S2 & _).
    destruct D3 as [(D3 & D4)|(D3 & D4 & D5)]; [congruence|].
    exists q0. split; [assumption|]. right. rewrite S1. cbn. rewrite D4, D5. now left.
  - apply (i_ackp s V).
  - apply (i_told s V).
  - apply (i_rolled s V).
  - intros x o n a A. destruct (i_rep s V x o n a A) as (q0 & B & C). exists q0. split; [now right|assumption].
  - intros x l A. destruct (i_end s V x l A) as (B & C). split; [assumption|]. intros k Hk. destruct (C k Hk). auto.
  - apply (i_drop s V).
  - apply (i_told_ph s V).
Qed.

(** The server moves on to the end of the transaction. *)
Lemma inv_phase s ph' dec' :
  Inv s ->
  let c := s_cli s in
  let s' := with_cli (mkCli ph' (c_n c) (c_bad c) (c_good c) (c_parts c) (c_auto c) dec') s in
  c_ph c <> PAb -> c_ph c <> PCancel ->
  ph' = PCom \/ ph' = PDone \/ ph' = PAb \/ ph' = PCancel ->
  (ph' <> PAb -> dec' = true) ->
  (c_dec c = true -> dec' = true) ->
  (ph' = PAb -> dec' = true -> g_tag (s_reg s p) = true) ->
  (dec' = true -> c_dec c = true \/
     (c_ph c = PPrep /\ forall r, In r (c_parts c) -> In (r, RPrep, c_n c, AOk) (s_rep s))) ->
  (ph' = PDone -> comm s p) ->
  (c_ph c = PStmt -> ph' = PAb /\ dec' = false) ->
  Inv s'.
Proof.
  intros V c s' O1 O2 A B C D E F G.
  assert (Dm : doomed s -> doomed s').
  { intros [X|(X & _)]; [left; exact X|]. contradiction. }
  assert (Hp : dec' = true -> c_ph c = PPrep \/ c_dec c = true) by (intros X; destruct (E X); tauto).
  destruct (i_ph_n s V) as (N1 & N2 & N3 & N4 & N5).
  assert (Np : ph' <> PRun /\ ph' <> PStmt /\ ph' <> PPrep).
  { repeat split; intros X; rewrite X in A; decompose [or] A; discriminate. }
  destruct Np as (Np1 & Np2 & Np3).
  constructor; change (s_reg s') with (s_reg s); change (s_sent s') with (s_sent s);
    change (s_rep s') with (s_rep s); change (s_qry s') with (s_qry s);
    change (s_ans s') with (s_ans s); change (accounted p s') with (accounted p s);
    change (primed p s') with (primed p s);
    change (c_ph (s_cli s')) with ph'; change (c_dec (s_cli s')) with dec';
    change (c_n (s_cli s')) with (c_n c); change (c_bad (s_cli s')) with (c_bad c);
    change (c_good (s_cli s')) with (c_good c); change (c_parts (s_cli s')) with (c_parts c);
    change (c_auto (s_cli s')) with (c_auto c).
  - apply (i_hist s V).
  - apply (i_tag s V).
  - apply (i_out s V).
  - intros _. apply (i_live1 s V). assumption.
  - apply (i_live2 s V).
  - intros x X. destruct (i_comm s V x X). auto.
  - intros x X. destruct (i_fin s V x X); auto.
  - apply (i_qry s V).
  - apply (i_ans s V).
  - intros x q Hi. pose proof (i_sent s V x q Hi) as So. unfold sent_ok in *.
    change (s_cli s') with (mkCli ph' (c_n c) (c_bad c) (c_good c) (c_parts c) (c_auto c) dec').
    cbn [c_ph c_n c_bad c_parts c_auto c_dec]. fold c in So.
    destruct (q_op q).
    + destruct So as (S0 & S1 & S2 & S3 & S4). repeat (split; [assumption|]). congruence.
    + destruct So as (S0 & S1 & S2 & S3 & S4). repeat (split; [assumption|]). assumption.
    + destruct So as (S0 & S1 & S2 & S3 & S4). repeat (split; [auto|]). assumption.
    + destruct So as (S0 & S1 & [S2|S2] & S3); contradiction.
  - apply (i_uniq s V).
  - intros [X|X]; congruence.
  - congruence.
  - intros [X|[X|X]]; apply B; congruence.
  - assumption.
  - repeat split; auto; try congruence. intros X. destruct (Hp X); auto.
  - apply (i_bad s V).
  - congruence.
  - apply (i_auto_bad s V).
  - apply (i_auto_good s V).
  - intros [X|X]; [congruence|]. apply (i_parts s V). destruct (Hp X); auto.
  - intros X. destruct (E X) as [Y|(_ & Y)]; [|exact Y]. exact (i_dec s V Y).
  - intros x k X Y. destruct (i_good s V x k X Y) as [Z|[([Z|Z] & Z2)|Z]]; auto.
    + right. left. split; [right; apply G; assumption|assumption].
    + destruct Z. contradiction.
  - intros k X. destruct (i_good_n s V k X). split; [assumption|congruence].
  - intros x pl X. exact (i_pool s V x pl X).
  - intros x k X Y Z. destruct (i_comp s V x k X Y Z); auto.
  - congruence.
  - intros x n Hi k X Y. destruct (i_ack s V x n Hi k X Y); auto.
  - intros n Hi. destruct (i_ackp s V n Hi); auto.
  - apply (i_told s V).
  - apply (i_rolled s V).
  - apply (i_rep s V).
  - apply (i_end s V).
  - intros x l X k Y. destruct (i_drop s V x l X k Y); auto.
  - assumption.
Qed.

(** A new statement. *)
Lemma no_prep_sent s r q : Inv s -> c_ph (s_cli s) = PRun \/ c_ph (s_cli s) = PStmt ->
  In (r, q) (s_sent s) -> q_op q = RDml.
Proof.
  intros V P Hi. pose proof (i_sent s V r q Hi) as So. unfold sent_ok in So.
  destruct (i_ph_run s V P) as (D & _).
  destruct (q_op q); [reflexivity| | |].
  - destruct So as (_ & _ & A & B & _). destruct P; congruence.
  - destruct So as (_ & _ & A & _). congruence.
  - destruct So as (_ & _ & [A|A] & _); destruct P; congruence.
Qed.

Lemma run_doomed s : c_ph (s_cli s) <> PAb -> doomed s -> g_tag (s_reg s p) = true.
Proof. intros A [B|(B & _)]; [assumption|contradiction]. Qed.

Lemma run_no_comm s r l : Inv s -> c_ph (s_cli s) = PRun \/ c_ph (s_cli s) = PStmt ->
  ~ In (true, l) (g_hist (s_reg s r)).
Proof.
  intros V P Hl. destruct (i_comm s V r (ex_intro _ l Hl)) as (D & _).
  destruct (i_ph_run s V P). congruence.
Qed.

Lemma run_no_prep s r pl : Inv s -> c_ph (s_cli s) = PRun \/ c_ph (s_cli s) = PStmt ->
  g_pool (s_reg s r) = Some pl -> pl_prep pl = false.
Proof.
  intros V P E. destruct (pl_prep pl) eqn:X; [|reflexivity]. exfalso.
  destruct (i_pool s V r pl E) as (_ & _ & _ & _ & P5 & _). destruct (P5 X) as ((q & A & B) & _).
  pose proof (no_prep_sent s r q V P A). congruence.
Qed.

Lemma run_no_ack s r n : Inv s -> c_ph (s_cli s) = PRun \/ c_ph (s_cli s) = PStmt ->
  ~ In (r, RPrep, n, AOk) (s_rep s).
Proof.
  intros V P Hi. destruct (i_rep s V r RPrep n AOk Hi) as (q & A & B & _).
  pose proof (no_prep_sent s r q V P A). congruence.
Qed.

(** The server works on: same regions, same messages, another statement, or PREPARE. *)
Lemma inv_work s ph' n' bad' good' parts' auto' :
  Inv s ->
  let c := s_cli s in
  let s' := with_cli (mkCli ph' n' bad' good' parts' auto' (c_dec c)) s in
  c_ph c = PRun \/ c_ph c = PStmt ->
  ph' = PRun \/ ph' = PStmt \/ ph' = PPrep ->
  c_n c <= n' ->
  (ph' = PStmt \/ ph' = PPrep -> c_n c < n') ->
  incl (c_bad c) bad' ->
  (forall k, In k bad' -> 2 <= k <= n') ->
  (ph' = PStmt -> ~ In n' bad') ->
  incl (c_good c) good' ->
  (forall k, In k good' -> 2 <= k <= n' /\ (ph' = PStmt -> k < n')) ->
  (forall r k, sent_to s r k -> In k (c_bad c) \/ In k (c_good c) \/ (c_ph c = PStmt /\ k = c_n c) ->
     In k bad' \/ In k good') ->
  (forall r k, sent_to s r k -> In k good' -> ~ In k bad' -> ~ In k (c_good c) ->
     g_tag (s_reg s p) = true \/ holds (s_reg s r) k) ->
  (ph' = PPrep -> In p parts' /\ forall r q, In (r, q) (s_sent s) -> In r parts') ->
  (auto' = true -> ph' = PPrep /\ n' = 3 /\ s_sent s = [] /\ bad' = [] /\ good' = []) ->
  Inv s'.
Proof.
  intros V c s' P Q Hn1 Hn2 Hb Hb2 Hb3 Hg Hg2 Hgb Hcp Hpt Hau.
  destruct (i_ph_run s V P) as (Dc & Au).
  assert (Hc : c_n c = c_n (s_cli s)) by reflexivity.
  destruct (i_ph_n s V) as (N1 & N2 & N3 & N4 & N5).
  assert (Pa : c_ph c <> PAb) by (destruct P as [X|X]; intros Y; congruence).
  assert (Qa : ph' <> PAb /\ ph' <> PDone /\ ph' <> PCom /\ ph' <> PCancel).
  { repeat split; intros X; rewrite X in Q; decompose [or] Q; discriminate. }
  destruct Qa as (Qa1 & Qa2 & Qa3 & Qa4).
  assert (Dm : doomed s -> doomed s') by (intros X; left; exact (run_doomed s Pa X)).
  assert (Au' : forall x q, In (x, q) (s_sent s) -> auto' = false).
  { intros x q Hi. destruct auto'; [|reflexivity]. destruct (Hau eq_refl) as (_ & _ & X & _). rewrite X in Hi. destruct Hi. }
  constructor; change (s_reg s') with (s_reg s); change (s_sent s') with (s_sent s);
    change (s_rep s') with (s_rep s); change (s_qry s') with (s_qry s);
    change (s_ans s') with (s_ans s); change (accounted p s') with (accounted p s);
    change (primed p s') with (primed p s);
    change (c_ph (s_cli s')) with ph'; change (c_dec (s_cli s')) with (c_dec c);
    change (c_n (s_cli s')) with n'; change (c_bad (s_cli s')) with bad';
    change (c_good (s_cli s')) with good'; change (c_parts (s_cli s')) with parts';
    change (c_auto (s_cli s')) with auto'.
  - apply (i_hist s V).
  - apply (i_tag s V).
  - apply (i_out s V).
  - intros _. apply (i_live1 s V). assumption.
  - apply (i_live2 s V).
  - apply (i_comm s V).
  - intros x X. destruct (i_fin s V x X); auto.
  - apply (i_qry s V).
  - apply (i_ans s V).
  - intros x q Hi. pose proof (no_prep_sent s x q V P Hi) as O.
    pose proof (i_sent s V x q Hi) as So. unfold sent_ok in *. rewrite O in *.
    change (s_cli s') with (mkCli ph' n' bad' good' parts' auto' (c_dec c)).
    cbn [c_ph c_n c_bad c_parts c_auto c_dec]. fold c in So.
    destruct So as (S0 & S1 & S2 & S3 & S4).
    split; [assumption|]. split; [lia|]. split; [eapply incl_tran; eauto|].
    split; [eauto|]. intros X. assert (c_n c < n') by auto. lia.
  - apply (i_uniq s V).
  - intros X. split; [assumption|]. destruct auto'; [|reflexivity].
    destruct (Hau eq_refl) as (Y & _). destruct X; congruence.
  - auto.
  - intros [X|[X|X]]; congruence.
  - intros X. congruence.
  - split; [lia|]. split; [|split; [|split]].
    + intros X. specialize (Hn2 (or_introl X)). unfold c in Hn2. lia.
    + intros X. apply (Hau X).
    + intros X. specialize (Hn2 (or_intror X)). unfold c in Hn2. lia.
    + intros X. unfold c in X. congruence.
  - assumption.
  - assumption.
  - intros X. apply (Hau X).
  - intros X. apply (Hau X).
  - intros [X|X]; [|unfold c in X; congruence]. destruct (Hpt X) as (Y & Z). split; [assumption|]. intros x q Hi _. exact (Z x q Hi).
  - intros X. unfold c in X. congruence.
  - intros x k X Y. left.
    assert (Z : In k bad' \/ In k good').
    { apply (Hgb x k X). destruct (in_dec Nat.eq_dec k (c_bad c)) as [I0|I0]; [auto|].
      destruct (i_good s V x k X I0) as [Z|[([Z|(Z & _)] & Z2)|(Z & _)]]; auto; [contradiction|].
      congruence. }
    destruct Z; [contradiction|assumption].
  - assumption.
  - intros x pl X. pose proof (run_no_prep s x pl V P X) as Np.
    destruct (i_pool s V x pl X) as (P1 & P2 & P3 & P4 & P5 & P6 & P7 & P8).
    unfold pool_ok. change (s_cli s') with (mkCli ph' n' bad' good' parts' auto' (c_dec c)).
    cbn [c_ph c_n c_bad c_parts c_auto c_dec]. fold c in P1, P6.
    split; [lia|]. split; [assumption|]. split; [assumption|]. split; [assumption|].
    split; [congruence|]. split.
    + intros A q B C D. destruct (P6 A q B C D) as (E & F). split; [|assumption].
      intros k Hk. destruct (E k Hk); auto.
    + split; [|destruct P8 as [Z|[(Z & _)|Z]]; [auto|congruence|auto]]. intros Y. destruct (i_out s V x pl X) as (q & A & _). specialize (Au' x q A). congruence.
  - intros x k X Y Z. destruct (in_dec Nat.eq_dec k (c_good c)) as [I0|I0].
    + assert (I1 : ~ In k (c_bad c)) by auto.
      destruct (i_comp s V x k X I0 I1) as [A|A]; auto.
    + destruct (Hcp x k X Y Z I0) as [A|A]; [left; left; exact A|auto].
  - intros x X Y Z. exfalso. destruct (i_rep s V x RDml n' AOk Z) as (q & A & B & C0).
    pose proof (i_sent s V x q A) as So. unfold sent_ok in So. rewrite B in So. destruct So as (_ & S1 & _).
    fold c in S1. specialize (Hn2 (or_introl X)). lia.
  - intros x n Hi. destruct (run_no_ack s x n V P Hi).
  - intros n Hi. destruct (run_no_ack s p n V P Hi).
  - apply (i_told s V).
  - apply (i_rolled s V).
  - apply (i_rep s V).
  - intros x l X. destruct (run_no_comm s x l V P X).
  - intros x l X k Y. destruct (i_drop s V x l X k Y); auto.
  - congruence.
Qed.

Lemma sent_le s r k : Inv s -> c_ph (s_cli s) = PRun \/ c_ph (s_cli s) = PStmt ->
  sent_to s r k -> k <= c_n (s_cli s) /\ exists q, In (r, q) (s_sent s) /\ q_op q = RDml /\ q_seq q = k.
Proof.
  intros V P (q & A & B). pose proof (no_prep_sent s r q V P A) as O.
  pose proof (i_sent s V r q A) as So. unfold sent_ok in So. rewrite O in So.
  destruct So as (S0 & S1 & _). destruct B as [(_ & B)|B]; [|rewrite S0 in B; destruct B].
  split; [lia|]. eauto.
Qed.

(** ** Every step *)

Theorem inv_step a s s' :
  Inv s -> step p a s = Some s' -> harmless p a s = true -> keeps_track p s s' = true -> Inv s'.
Proof.
  intros V St Hh Hk. destruct (i_ph_n s V) as (N1 & N2 & N3 & N4 & N5).
  destruct a; cbn [step] in St.
  - (* ADml *)
    destruct (c_ph (s_cli s)) eqn:P; try discriminate. injection St as <-.
    destruct (i_ph_run s V (or_introl P)) as (Dc & Au). rewrite Au.
    apply inv_work.
    + assumption.
    + auto.
    + auto.
    + lia.
    + lia.
    + apply incl_refl.
    + intros k Hi. pose proof (i_bad s V k Hi). lia.
    + intros _ Hi. pose proof (i_bad s V _ Hi). lia.
    + apply incl_refl.
    + intros k Hi. destruct (i_good_n s V k Hi). lia.
    + intros r k _ [A|[A|(A & _)]]; auto. congruence.
    + intros r k _ A _ B. contradiction.
    + discriminate.
    + discriminate.
  - (* ASend *)
    destruct (may_send p r s) eqn:M; [|discriminate]. injection St as <-. now apply inv_send.
  - (* AGood *)
    destruct (phase_eqb (c_ph (s_cli s)) PStmt) eqn:P; [|discriminate]. apply phase_eqb_eq in P.
    cbn [andb] in St. destruct (existsb _ _); [|discriminate]. cbn [andb] in St.
    destruct (forallb _ _) eqn:F; [|discriminate]. injection St as <-.
    destruct (i_ph_run s V (or_intror P)) as (Dc & Au). rewrite Au. specialize (N2 P).
    rewrite forallb_forall in F.
    apply inv_work.
    + assumption.
    + auto.
    + auto.
    + lia.
    + intros [X|X]; discriminate.
    + apply incl_refl.
    + intros k Hi. pose proof (i_bad s V k Hi). lia.
    + discriminate.
    + intros k Hi. apply in_or_app. auto.
    + intros k Hi. split; [|discriminate]. apply in_app_or in Hi. destruct Hi as [Hi|[<-|[]]]; [|lia].
      destruct (i_good_n s V k Hi). lia.
    + intros r k _ [A|[A|(_ & ->)]]; auto; right; apply in_or_app; [auto|right; now left].
    + intros r k Hst Hi _ Hn. apply in_app_or in Hi. destruct Hi as [Hi|[<-|[]]]; [contradiction|].
      destruct (sent_le s r _ V (or_intror P) Hst) as (_ & q & A & B & C).
      specialize (F (r, q) A). cbn in F. rewrite C, Nat.eqb_refl in F. cbn in F.
      apply replied_ok_In in F. now apply (i_stmt s V).
    + discriminate.
    + discriminate.
  - (* AGiveUp *)
    destruct (c_ph (s_cli s)) eqn:P; try discriminate. injection St as <-.
    destruct (i_ph_run s V (or_intror P)) as (Dc & Au). rewrite Au. specialize (N2 eq_refl).
    apply inv_work.
    + assumption.
    + auto.
    + auto.
    + lia.
    + intros [X|X]; discriminate.
    + intros k Hi. apply in_or_app. auto.
    + intros k Hi. apply in_app_or in Hi. destruct Hi as [Hi|[<-|[]]]; [|lia].
      pose proof (i_bad s V k Hi). lia.
    + discriminate.
    + apply incl_refl.
    + intros k Hi. destruct (i_good_n s V k Hi). split; [lia|discriminate].
    + intros r k _ [A|[A|(_ & ->)]]; auto; left; apply in_or_app; [auto|right; now left].
    + intros r k _ A _ B. contradiction.
    + discriminate.
    + discriminate.
  - (* APrep *)
    destruct (phase_eqb (c_ph (s_cli s)) PRun) eqn:P; [|discriminate]. apply phase_eqb_eq in P.
    cbn [andb] in St. destruct (memb p parts) eqn:M; [|discriminate]. cbn [andb] in St.
    destruct (forallb _ _) eqn:F; [|discriminate]. cbn [andb] in St.
    destruct (negb auto || _) eqn:A; [|discriminate]. injection St as <-.
    rewrite forallb_forall in F. apply memb_In in M.
    assert (Ha : auto = true -> c_n (s_cli s) = 1 /\ s_sent s = []).
    { intros ->. cbn in A. apply andb_true_iff in A. destruct A as (A & B). apply Nat.eqb_eq in A.
      split; [assumption|]. destruct (s_sent s); [reflexivity|discriminate]. }
    assert (Hb0 : auto = true -> c_bad (s_cli s) = []).
    { intros X. destruct (Ha X) as (Y & _). destruct (c_bad (s_cli s)) as [|k t] eqn:E; [reflexivity|].
      pose proof (i_bad s V k). rewrite E in H. specialize (H (or_introl eq_refl)). lia. }
    assert (Hn : c_n (s_cli s) < (if auto then 3 else S (c_n (s_cli s)))).
    { destruct auto; [|lia]. destruct (Ha eq_refl). lia. }
    apply inv_work.
    + assumption.
    + auto.
    + auto.
    + lia.
    + lia.
    + apply incl_refl.
    + intros k Hi. pose proof (i_bad s V k Hi). lia.
    + discriminate.
    + apply incl_refl.
    + intros k Hi. destruct (i_good_n s V k Hi). split; [lia|discriminate].
    + intros r k _ [X|[X|(X & _)]]; auto. congruence.
    + intros r k _ B _ D. contradiction.
    + intros _. split; [assumption|]. intros r q Hi. specialize (F (r, q) Hi). cbn in F. now apply memb_In.
    + intros X. destruct (Ha X) as (Y & Z). split; [reflexivity|]. rewrite X. split; [reflexivity|].
      split; [assumption|]. split; [auto|].
      destruct (c_good (s_cli s)) as [|k t] eqn:E; [reflexivity|]. exfalso.
      pose proof (i_good_n s V k) as Hg. rewrite E in Hg. specialize (Hg (or_introl eq_refl)). lia.
  - (* ADecide *)
    destruct (phase_eqb (c_ph (s_cli s)) PPrep) eqn:P; [|discriminate]. apply phase_eqb_eq in P.
    cbn [andb] in St. destruct (forallb _ _) eqn:F; [|discriminate]. injection St as <-.
    rewrite forallb_forall in F.
    apply inv_phase; auto; rewrite ?P; try discriminate.
    intros _. right. split; [reflexivity|]. intros r Hi. apply replied_ok_In. now apply F.
  - (* ATold *)
    destruct (phase_eqb (c_ph (s_cli s)) PCom) eqn:P; [|discriminate]. apply phase_eqb_eq in P.
    cbn [andb] in St. destruct (replied _ _ _ _ _) eqn:F; [|discriminate]. injection St as <-.
    apply replied_ok_In in F. assert (D : c_dec (s_cli s) = true) by (apply (i_ph_dec s V); auto).
    apply inv_phase; auto; rewrite ?P; try discriminate.
    intros _. exact (i_told s V _ F).
  - (* AAbort *)
    destruct (_ || _) eqn:P; [|discriminate]. injection St as <-.
    rewrite !orb_true_iff, andb_true_iff, !phase_eqb_eq in P.
    apply inv_phase; auto.
    + decompose [or and] P; congruence.
    + decompose [or and] P; congruence.
    + intros _ D. decompose [or and] P.
      * destruct (i_ph_run s V); auto. congruence.
      * destruct (i_ph_run s V); auto. congruence.
      * pose proof (i_ph_prep s V). intuition congruence.
      * apply replied_rolled_In in H1. exact (i_rolled s V _ H1).
    + discriminate.
    + intros X. split; [reflexivity|]. now apply (i_ph_run s V (or_intror X)).
  - (* ACancel *)
    destruct (c_ph (s_cli s)) eqn:P; try discriminate. injection St as <-.
    assert (D : c_dec (s_cli s) = true) by (apply (i_ph_dec s V); auto).
    apply inv_phase; auto; rewrite ?P; try discriminate.
  - (* ADeliver *)
    destruct (nth_error (s_sent s) i) as [[r q]|] eqn:E; [|discriminate].
    destruct (handle (r =? p) q f (s_reg s r)) as [g a] eqn:Eh. injection St as <-.
    pose proof (inv_deliver s i r q f V E Hh) as X. rewrite Eh in X. cbn [fst snd] in X. auto.
  - (* ATimeout *)
    injection St as <-. now apply inv_timeout.
  - (* AAsk *)
    destruct (r =? p) eqn:R; [discriminate|]. apply Nat.eqb_neq in R.
    destruct (g_pool (s_reg s r)) as [pl|] eqn:E; [|discriminate]. injection St as <-.
    now apply inv_ask.
  - (* AAnswer *)
    destruct (nth_error (s_qry s) i) as [[r b]|] eqn:E; [|discriminate].
    destruct (g_pool (s_reg s p)) eqn:Ep; [discriminate|]. injection St as <-.
    apply inv_answer; auto. eapply nth_error_In; eauto.
  - (* AObey *)
    destruct (nth_error (s_ans s) i) as [[r a]|] eqn:E; [|discriminate]. injection St as <-.
    eapply inv_obey; eauto.
  - (* ALead *)
    destruct (g_pool (s_reg s r)) as [pl|] eqn:E; [|discriminate].
    destruct (pl_run pl) eqn:Er; [|discriminate]. destruct (pl_logged pl); [discriminate|].
    injection St as <-. eapply inv_lose; eauto.
  - discriminate.
  - discriminate.
Qed.

Theorem inv_calm l s s' : Inv s -> calm_run p l s s' -> Inv s'.
Proof.
  intros V C. induction C as [|a l s s1 s' St Hh Hk C IH]; [assumption|].
  apply IH. eapply inv_step; eauto.
Qed.

Corollary inv_reach l s : calm_run p l init s -> Inv s.
Proof. apply inv_calm. apply inv_init. Qed.

Lemma comm_not_doomed s r : Inv s -> comm s r -> ~ doomed s.
Proof.
  intros V C. destruct (i_comm s V r C) as (D & Cp). intros [X|(_ & X)]; [|congruence].
  destruct (i_tag s V p X). contradiction.
Qed.

Lemma all_or_nothing l s r done r' lost :
  calm_run p l init s -> committed_with s r done -> dropped_with s r' lost ->
  forall k, In k lost -> given_up s k.
Proof.
  intros C A B k Hk. pose proof (inv_reach l s C) as V.
  destruct (i_drop s V r' lost B k Hk) as [X|X]; [exact X|].
  destruct (comm_not_doomed s r V (ex_intro _ done A) X).
Qed.

Lemma sent_in_parts s r k : Inv s -> c_dec (s_cli s) = true -> sent_to s r k ->
  In r (c_parts (s_cli s)).
Proof.
  intros V D (q & A & B). pose proof (i_sent s V r q A) as So. unfold sent_ok in So.
  destruct (q_op q) eqn:O.
  - apply (i_parts s V (or_intror D)) with q; auto.
  - tauto.
  - tauto.
  - destruct So as (_ & S1 & _). rewrite S1 in B. destruct B as [(X & _)|[]]. discriminate.
Qed.

Lemma exactly_standing l s r done :
  calm_run p l init s -> committed_with s r done ->
  g_hist (s_reg s r) = [(true, done)] /\ StronglySorted lt done /\
  forall k, In k done <-> sent_to s r k /\ ~ given_up s k.
Proof.
  intros C A. pose proof (inv_reach l s C) as V.
  assert (Nn : g_hist (s_reg s r) <> []) by (unfold committed_with in A; destruct (g_hist (s_reg s r)); [destruct A|discriminate]).
  destruct (i_hist s V r Nn) as (Np & _ & e & E).
  assert (Ee : e = (true, done)) by (unfold committed_with in A; rewrite E in A; destruct A as [A|[]]; assumption).
  subst e. split; [assumption|].
  destruct (i_end s V r done A) as (So & Sb). split; [assumption|].
  intros k. split; [apply Sb|]. intros (X & Y).
  destruct (i_comm s V r (ex_intro _ done A)) as (D & Cp).
  destruct (i_ack s V r _ (i_dec s V D r (sent_in_parts s r k V D X)) k X Y) as [Z|[(pl & Z & _)|(l' & Z & W)]].
  - destruct (comm_not_doomed s r V (ex_intro _ done A) Z).
  - congruence.
  - rewrite E in Z. destruct Z as [Z|[]]. injection Z as ->. assumption.
Qed.

Lemma told_means l s :
  calm_run p l init s -> told_committed s ->
  (exists done, committed_with s p done) /\
  forall r k, sent_to s r k -> ~ given_up s k ->
    (exists done, committed_with s r done /\ In k done) \/ holds_all_prepared s r.
Proof.
  intros C T. pose proof (inv_reach l s C) as V. pose proof (i_told_ph s V T) as Cp.
  split; [exact Cp|]. intros r k X Y.
  destruct (i_comm s V p Cp) as (D & _).
  pose proof (i_ack s V r _ (i_dec s V D r (sent_in_parts s r k V D X))) as K.
  assert (Nd := comm_not_doomed s p V Cp).
  destruct (K k X Y) as [Z|[(pl & Z & W & _)|Z]]; [contradiction| |left; exact Z].
  right. exists pl. split; [assumption|]. split; [assumption|].
  intros k' X' Y'. destruct (K k' X' Y') as [Z'|[(pl' & Z' & _ & W')|(l' & Z' & _)]]; [contradiction| |].
  - rewrite Z in Z'. injection Z' as <-. assumption.
  - destruct (i_hist s V r) as (Np & _); [|congruence]. intros E. rewrite E in Z'. destruct Z'.
Qed.

Lemma rolled_means l s :
  calm_run p l init s -> told_rolled_back s -> forall r done, ~ committed_with s r done.
Proof.
  intros C T r done A. pose proof (inv_reach l s C) as V.
  assert (Cr : comm s r) by (exists done; exact A).
  destruct (i_comm s V r Cr) as (D & _). apply (comm_not_doomed s r V Cr). left. exact (i_ph_ab s V T D).
Qed.

Lemma end_ph a s s' : step p a s = Some s' ->
  (c_ph (s_cli s) = PAb -> c_ph (s_cli s') = PAb) /\ (c_ph (s_cli s) = PDone -> c_ph (s_cli s') = PDone).
Proof.
  intros St.
  assert (G : c_ph (s_cli s) = PAb \/ c_ph (s_cli s) = PDone -> c_ph (s_cli s') = c_ph (s_cli s)).
  2: { split; intros E; rewrite G; auto. }
  intros P. destruct a; cbn [step] in St.
  - destruct P as [P|P]; rewrite P in St; discriminate.
  - destruct (may_send p r s); [|discriminate]. now injection St as <-.
  - destruct P as [P|P]; rewrite P in St; discriminate.
  - destruct P as [P|P]; rewrite P in St; discriminate.
  - destruct P as [P|P]; rewrite P in St; discriminate.
  - destruct P as [P|P]; rewrite P in St; discriminate.
  - destruct P as [P|P]; rewrite P in St; discriminate.
  - destruct P as [P|P]; rewrite P in St; discriminate.
  - destruct P as [P|P]; rewrite P in St; discriminate.
  - destruct (nth_error (s_sent s) i) as [[r q]|]; [|discriminate].
    destruct (handle _ _ _ _). now injection St as <-.
  - now injection St as <-.
  - destruct (r =? p); [discriminate|]. destruct (g_pool (s_reg s r)); [|discriminate]. now injection St as <-.
  - destruct (nth_error (s_qry s) i) as [[r b]|]; [|discriminate]. destruct (g_pool (s_reg s p)); [discriminate|].
    now injection St as <-.
  - destruct (nth_error (s_ans s) i) as [[r a]|]; [|discriminate]. now injection St as <-.
  - destruct (g_pool (s_reg s r)) as [pl|]; [|discriminate].
    destruct (pl_run pl); [|discriminate]. destruct (pl_logged pl); [discriminate|]. now injection St as <-.
  - destruct (g_pool (s_reg s r)) as [pl|]; [|discriminate]. now injection St as <-.
  - now injection St as <-.
Qed.

Lemma calm_end l s s' : calm_run p l s s' ->
  (told_rolled_back s -> told_rolled_back s') /\ (told_committed s -> told_committed s').
Proof.
  unfold told_rolled_back, told_committed.
  induction 1 as [|a l s s1 s' St Hh Hk C (IH1 & IH2)]; [auto|].
  destruct (end_ph a s s1 St). auto.
Qed.

Lemma calm_app l1 : forall l2 s s1 s2, calm_run p l1 s s1 -> calm_run p l2 s1 s2 -> calm_run p (l1 ++ l2) s s2.
Proof.
  induction l1 as [|a l1 IH]; intros l2 s s1 s2 C1 C2; inversion C1; subst; [assumption|].
  cbn. econstructor; eauto.
Qed.

(** A prepared secondary that finds the primary's transaction gone can always end its own, and
    ends it as the primary did. *)
Lemma prepared_ends l s r pl :
  calm_run p l init s -> r <> p ->
  g_pool (s_reg s r) = Some pl -> pl_prep pl = true -> g_pool (s_reg s p) = None ->
  exists s', calm_run p [AAsk r; AAnswer 0; AObey 0] s s' /\ g_pool (s_reg s' r) = None /\
    (((exists done, committed_with s p done) /\ committed_with s' r (pl_run pl)) \/
     ((forall done, ~ committed_with s p done) /\ dropped_with s' r (pl_run pl))).
Proof.
  intros C Hr E Ep En. pose proof (inv_reach l s C) as V.
  assert (Cn : contacted s) by (destruct (i_out s V r pl E) as (q & A & B); exists r, q; auto).
  destruct (i_live2 s V Cn) as (_ & Ac). pose proof Ac as Ac'. apply accounted_iff in Ac'.
  assert (Hp : (p =? r) = false) by (apply Nat.eqb_neq; congruence).
  set (tag := g_tag (s_reg s p)) in *.
  set (s1 := mkSt (s_reg s) (s_sent s) (s_rep s) ((r, true) :: s_qry s) (s_ans s) (s_cli s)).
  set (s2 := mkSt (s_reg s) (s_sent s) (s_rep s) ((r, true) :: s_qry s)
               ((r, if tag then SRolled else SCommitted) :: s_ans s) (s_cli s)).
  set (s3 := with_reg r (self_end (negb tag) (s_reg s r)) s2).
  assert (A3 : accounted p s3 = true).
  { unfold accounted, s3, with_reg. cbn [s_reg]. unfold upd. rewrite Hp. exact Ac. }
  assert (Sr : s_reg s3 r = self_end (negb tag) (s_reg s r)).
  { unfold s3, with_reg. cbn [s_reg]. unfold upd. now rewrite Nat.eqb_refl. }
  exists s3. split; [|split].
  - econstructor.
    + cbn [step]. rewrite (proj2 (Nat.eqb_neq r p) Hr), E, Ep. fold s1. reflexivity.
    + reflexivity.
    + unfold keeps_track. change (accounted p s1) with (accounted p s). rewrite Ac. reflexivity.
    + econstructor.
      * cbn [step]. unfold s1 at 1. cbn [s_qry nth_error]. change (s_reg s1) with (s_reg s).
        rewrite En. fold tag.
        instantiate (1 := s2). unfold s2, s1. cbn [s_reg s_sent s_rep s_qry s_ans s_cli]. reflexivity.
      * reflexivity.
      * unfold keeps_track. change (accounted p s2) with (accounted p s). rewrite Ac.
        destruct (negb (accounted p s1)); reflexivity.
      * econstructor; [| | |constructor].
        -- cbn [step]. unfold s2 at 1. cbn [s_ans nth_error]. change (s_reg s2) with (s_reg s).
           replace (match (if tag then SRolled else SCommitted) with SCommitted => true | _ => false end)
             with (negb tag) by (destruct tag; reflexivity). reflexivity.
        -- cbn [harmless]. unfold s2 at 1. cbn [s_ans nth_error]. destruct tag; reflexivity.
        -- unfold keeps_track. rewrite A3. destruct (negb (accounted p s2)); reflexivity.
  - rewrite Sr. unfold self_end. rewrite E. unfold commit_pool, rollback_pool. rewrite Ep.
    destruct (negb tag), (negb (pl_wrote pl)); reflexivity.
  - destruct tag eqn:Et.
    + right. split.
      * intros done X. destruct (i_tag s V p Et) as (_ & Y). apply Y. exists done. exact X.
      * unfold dropped_with. rewrite Sr. unfold self_end. rewrite E. cbn [negb]. unfold rollback_pool.
        destruct (negb (pl_wrote pl)); cbn [fst end_txn g_hist]; apply in_or_app; right; now left.
    + left. split.
      * destruct Ac' as [(x & X)|[X|X]]; [congruence|congruence|exact X].
      * unfold committed_with. rewrite Sr. unfold self_end. rewrite E. cbn [negb]. unfold commit_pool. rewrite Ep.
        destruct (negb (pl_wrote pl)); cbn [fst end_txn g_hist]; apply in_or_app; right; now left.
Qed.

(** A history given as a list, checked step by step (for examples). *)
Fixpoint calm_exec (l : list action) (s : st) : option st :=
  match l with
  | [] => Some s
  | a :: l' =>
      match step p a s with
      | Some s1 => if harmless p a s && keeps_track p s s1 then calm_exec l' s1 else None
      | None => None
      end
  end.

Lemma calm_exec_run l : forall s s', calm_exec l s = Some s' -> calm_run p l s s'.
Proof.
  induction l as [|a l IH]; intros s s' E; cbn [calm_exec] in E; [injection E as <-; constructor|].
  destruct (step p a s) as [s1|] eqn:St; [|discriminate].
  destruct (harmless p a s) eqn:Hh; [|discriminate]. cbn [andb] in E.
  destruct (keeps_track p s s1) eqn:Hk; [|discriminate]. econstructor; eauto.
Qed.

End Fixed.
