(* From the executors to lists of documents. *)
From Coq Require Import ZArith List Bool Sorted Lia PeanoNat.
From Verif Require Import Common.Bytes Common.KV Sort.Model Rev.Model Rev.Spec Rev.Order Rev.ProofsParser Rev.ProofsExec.
Import ListNotations.
Local Open Scope nat_scope.

(* the ascending list of what is left *)
Definition lists (e : exec) (L : list key) : Prop :=
  StronglySorted below L /\ forall k, In k L <-> rem e k.

Lemma sorted_head k L x : StronglySorted below (k :: L) -> In x L -> below k x.
Proof. intros Q HI. apply StronglySorted_inv in Q. destruct Q as [_ F]. rewrite Forall_forall in F. auto. Qed.

Lemma lists_head e L : good e -> lists e L -> head L = current_id e.
Proof.
  intros Ge [Q E]. pose proof (cur_least e Ge) as M. destruct L as [|k L]; destruct (current_id e) as [c|]; cbn in *; auto.
  - destruct M as [M _]. apply E in M. destruct M.
  - destruct M as [M1 M2]. f_equal. apply E in M1. destruct M1 as [M1|M1]; [exact M1|]. pose proof (sorted_head k L c Q M1).
    assert (upto c k) by (apply M2; apply E; left; reflexivity). exfalso. korder.
  - exfalso. apply (M k). apply E. left. reflexivity.
Qed.

Lemma drop_sorted t L : StronglySorted below L -> StronglySorted below (drop_below t L) /\ forall k, In k (drop_below t L) <-> In k L /\ upto t k.
Proof.
  induction L as [|x L IH]; intros Q; cbn [drop_below]; [split; [exact Q|cbn; tauto]|].
  pose proof Q as Q'. apply StronglySorted_inv in Q'. destruct Q' as [Q1 _]. destruct (bltb x t) eqn:B.
  - apply bltb_below in B. destruct (IH Q1) as [I1 I2]. split; [exact I1|]. intros k. rewrite I2. cbn. split; [tauto|].
    intros [[->|X] Y]; [exfalso; korder|tauto].
  - apply bltb_upto in B. split; [exact Q|]. intros k. split; [|tauto]. intros X. split; [exact X|]. destruct X as [->|X]; [exact B|].
    pose proof (sorted_head x L k Q X). korder.
Qed.

Lemma after_lists o e e' L : good e -> lists e L -> does o e e' -> lists e' (after o L).
Proof.
  intros Ge HL (Ge'&_&R). pose proof (lists_head e L Ge HL) as Hd. destruct HL as [Q E]. destruct o as [|t]; cbn [after].
  - split; [destruct L; [exact Q|apply StronglySorted_inv in Q; apply Q]|]. intros k. rewrite R. unfold keeps. rewrite <- Hd, <- (E k).
    destruct L as [|x L]; cbn; [tauto|]. split.
    + intros X. split; [tauto|]. intros [= ->]. pose proof (sorted_head k L k Q X). korder.
    + intros [[->|X] Y]; [congruence|exact X].
  - destruct (drop_sorted t L Q) as [Q' I']. split; [exact Q'|]. intros k. rewrite I', R. unfold keeps. rewrite (E k). reflexivity.
Qed.

Lemma lists_exist U n : forall e, good e -> incl (univ e) U -> match current_id e with Some c => above U c < n | None => True end -> exists L, lists e L.
Proof.
  induction n as [|n IH]; intros e Ge HU M; pose proof (cur_least e Ge) as Le.
  - destruct (current_id e) as [c|]; [lia|]. exists []. split; [constructor|]. intros k. split; [intros []|apply Le].
  - destruct (current_id e) as [c|] eqn:C; [|exists []; split; [constructor|]; intros k; split; [intros []|apply Le]].
    destruct (call_ok Next e Ge) as (e'&_&D). pose proof D as (Ge'&U'&R).
    destruct (IH e') as (L&Q&E); [exact Ge'|intros x Hx; apply HU, U', Hx| |].
    + destruct (current_id e') as [c'|] eqn:C'; [|exact Logic.I]. pose proof (cur_univ e' Ge' c' C') as I'.
      pose proof (does_up Next e e' Ge D) as O. rewrite C, C' in O. cbn in O. pose proof (next_leaves e e' c Ge D C) as N. rewrite C' in N.
      assert (below c c') by (apply upto_cases in O; destruct O as [O|O]; [exact O|congruence]).
      pose proof (above_lt U c c' H (HU _ (U' _ I'))). lia.
    + destruct Le as [L1 L2]. exists (c :: L). split.
      * constructor; [exact Q|]. rewrite Forall_forall. intros x Hx. apply E, R in Hx. destruct Hx as [Hx Nx]. apply L2 in Hx. rewrite C in Nx. apply upto_cases in Hx. destruct Hx as [Hx|Hx]; [exact Hx|congruence].
      * intros k. cbn. rewrite E, R. unfold keeps. rewrite C. split; [intros [->|[X _]]; assumption|]. intros X.
        destruct (list_eq_dec Z.eq_dec c k) as [Y|Y]; [left; exact Y|right; split; [exact X|congruence]].
Qed.
Lemma has_list e : good e -> exists L, lists e L.
Proof.
  intros Ge. apply (lists_exist (univ e) (S (length (univ e))) e Ge (incl_refl _)). destruct (current_id e) as [c|]; [|exact Logic.I]. pose proof (above_len (univ e) c). lia.
Qed.

Lemma calls_ok os : forall e L, good e -> lists e L -> calls os e = Some (given os L).
Proof.
  induction os as [|o os IH]; intros e L Ge HL; [reflexivity|]. cbn [calls given].
  destruct (call_ok o e Ge) as (e'&E&D). rewrite E. pose proof (after_lists o e e' L Ge HL D) as HL'.
  rewrite (IH e' (after o L)); [|apply D|exact HL']. rewrite (lists_head e' _ (proj1 D) HL'). reflexivity.
Qed.

Lemma read_rest rounds : forall e L, good e -> lists e L -> length (tl L) < rounds -> read_all rounds e = Some (tl L).
Proof.
  induction rounds as [|r IH]; intros e L Ge HL R; [lia|]. cbn [read_all].
  destruct (call_ok Next e Ge) as (e'&E&D). rewrite E. pose proof (after_lists Next e e' L Ge HL D) as HL'. cbn [after] in HL'.
  rewrite <- (lists_head e' _ (proj1 D) HL'). destruct (tl L) as [|k T]; [reflexivity|]. cbn [head]. cbn [length] in R.
  rewrite (IH e' (k :: T)); [reflexivity|apply D|exact HL'|cbn; lia].
Qed.

(* ---- building ---- *)
Section QInd.
  Variable P : query -> Prop.
  Hypothesis HT : forall a b, P (QTerm a b).
  Hypothesis HA : forall qs, Forall P qs -> P (QAnd qs).
  Hypothesis HO : forall qs, Forall P qs -> P (QOr qs).
  Fixpoint query_nest (q : query) : P q :=
    let fix all l : Forall P l := match l with [] => Forall_nil P | s :: r => Forall_cons s (query_nest s) (all r) end in
    match q with QTerm a b => HT a b | QAnd qs => HA qs (all qs) | QOr qs => HO qs (all qs) end.
End QInd.

Definition fits (first second : key) (q : query) : Prop := stored q /\ (first <> [] \/ starts_inside second q).

Definition built (first second : key) (q : query) (e : exec) : Prop :=
  fresh e /\ forall k, docs e k <-> matches first second q k.

Definition builds (first second : key) : list query -> option (list exec) :=
  fix builds qs :=
    match qs with
    | [] => Some []
    | q :: r => let* e := build first second q in let* es := builds r in Some (e :: es)
    end.

Lemma builds_ok first second qs :
  Forall (fun q => fits first second q -> exists e, build first second q = Some e /\ built first second q e) qs ->
  Forall (fits first second) qs ->
  exists es, builds first second qs = Some es /\ Forall2 (built first second) qs es.
Proof.
  induction qs as [|q r IH]; intros F W; [exists []; split; [reflexivity|constructor]|].
  inversion F; subst. inversion W; subst. destruct (H1 H3) as (e&E&B). destruct (IH H2 H4) as (es&Es&Bs).
  exists (e :: es). split; [cbn; rewrite E; fold (builds first second); rewrite Es; reflexivity|constructor; assumption].
Qed.

Lemma build_ok first second q : fits first second q -> exists e, build first second q = Some e /\ built first second q e.
Proof.
  induction q as [new old|qs IH|qs IH] using query_nest; intros [St In].
  - destruct St as [Sn So]. destruct (p_init_ok new old first second Sn So) as (p&E&Ok&En&Eo&Es&C).
    { destruct In as [X|[X|X]]; tauto. }
    cbn. rewrite E. eexists. split; [reflexivity|]. split.
    + cbn. split; [reflexivity|]. split; [reflexivity|]. split; [exact Ok|]. intros n Hn. rewrite Hn in C. rewrite Es. apply C.
    + intros k. cbn [docs matches]. destruct (pcur p) as [n|].
      * destruct C as [[C1 C2] C3]. unfold vis. rewrite En, Eo, Es. split.
        -- intros [(m&Em&Dm&Bm) U]. split; [|eauto]. split; [|exact Bm]. destruct C1 as [C1|C1]; [left; exact C1|right; korder].
        -- intros [R (m&Em&Dm)]. split; [exists m; split; [exact Em|]; split; [exact Dm|apply R]|eapply C3; eauto].
      * split; [intros []|]. intros [R (m&Em&_)]. apply (C k m Em R).
  - assert (W : Forall (fits first second) qs).
    { clear IH. cbn in St, In. induction qs as [|q r IHr]; constructor.
      - split; [apply St|]. destruct In as [X|[X _]]; [left; exact X|right; exact X].
      - apply IHr; [apply St|]. destruct In as [X|[_ X]]; [left; exact X|right; exact X]. }
    destruct (builds_ok first second qs IH W) as (es&E&B). change (build first second (QAnd qs)) with (let* es := builds first second qs in Some (And true false [] es)). rewrite E.
    eexists. split; [reflexivity|]. split.
    + cbn. split; [reflexivity|]. split; [reflexivity|]. clear -B. induction B; cbn; [exact Logic.I|]. split; [apply H|exact IHB].
    + intros k. cbn [docs matches]. assert (Z : es = [] <-> qs = []) by (destruct B; split; congruence). rewrite Z.
      assert (Y : fold_right (fun s P => docs s k /\ P) True es <-> (fix all l := match l with [] => True | q :: r => matches first second q k /\ all r end) qs).
      { clear -B. induction B; [reflexivity|]. cbn. rewrite (proj2 H k), IHB. reflexivity. }
      rewrite Y. reflexivity.
  - assert (W : Forall (fits first second) qs).
    { clear IH. cbn in St, In. induction qs as [|q r IHr]; constructor.
      - split; [apply St|]. destruct In as [X|[X _]]; [left; exact X|right; exact X].
      - apply IHr; [apply St|]. destruct In as [X|[_ X]]; [left; exact X|right; exact X]. }
    destruct (builds_ok first second qs IH W) as (es&E&B). change (build first second (QOr qs)) with (let* es := builds first second qs in Some (Or true false [] es)). rewrite E.
    eexists. split; [reflexivity|]. split.
    + cbn. split; [reflexivity|]. split; [reflexivity|]. clear -B. induction B; cbn; [exact Logic.I|]. split; [apply H|exact IHB].
    + intros k. cbn [docs matches].
      assert (Y : fold_right (fun s P => docs s k \/ P) False es <-> (fix any l := match l with [] => False | q :: r => matches first second q k \/ any r end) qs).
      { clear -B. induction B; [reflexivity|]. cbn. rewrite (proj2 H k), IHB. reflexivity. }
      rewrite Y. reflexivity.
Qed.

Lemma search_answers first second q : stored q -> first <> [] \/ starts_inside second q ->
  exists e L, build first second q = Some e /\
    StronglySorted below L /\ (forall k, In k L <-> matches first second q k) /\
    (forall os, calls (Next :: os) e = Some (head L :: given os L)) /\
    (forall rounds, length L < rounds -> read_all rounds e = Some L).
Proof.
  intros St In. destruct (build_ok first second q (conj St In)) as (e&E&F&D).
  destruct (call_first e F) as (e'&E'&S'). pose proof S' as (Ge'&_&R). destruct (has_list e' Ge') as (L&HL).
  exists e, L. split; [exact E|]. split; [apply HL|]. split; [intros k; rewrite (proj2 HL k), R; apply D|].
  pose proof (lists_head e' L Ge' HL) as Hd. split.
  - intros os. cbn [calls]. rewrite E', (calls_ok os e' L Ge' HL), Hd. reflexivity.
  - intros rounds Rd. destruct rounds as [|r]; [lia|]. cbn [read_all]. rewrite E', <- Hd. destruct L as [|k T]; [reflexivity|]. cbn [head length] in *.
    rewrite (read_rest r e' (k :: T) Ge' HL) by (cbn; lia). reflexivity.
Qed.
