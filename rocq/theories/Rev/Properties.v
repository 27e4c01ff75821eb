(** * C29, C30: reading posting lists and boolean full-text queries

    A query is a tree of terms, ANDs and ORs; each term has a recent and a merged list.
    [matches] (Spec.v) says which documents belong to a query; [given] what a cursor over
    an ascending list of documents hands out.  [call] and [read_all] are the code. *)
From Coq Require Import ZArith List Bool Sorted Lia.
From Verif Require Import Common.Bytes Common.KV Rev.Model Rev.Spec Rev.Order Rev.Proofs Rev.Arrow.
Import ListNotations.
Local Open Scope Z_scope.

(** ** C29 *)

(** A term read to the end gives its documents in ascending order, each once; the document
    of a key is that of the recent list if it has the key, and deleted ones are left out.
    The first call must be next; any sequence of next and seek calls after it gives what
    a cursor on that list gives: the next document, or the first one not below the key
    sought. *)
Theorem C29_posting_list_partial :
  forall new old first second,
    ascending new -> ascending old ->
    first <> [] \/ starts_inside second (QTerm new old) ->
    exists e L, build first second (QTerm new old) = Some e /\
      StronglySorted below L /\
      (forall k, In k L <->
         in_range first second k /\
         exists n, nkey n = k /\ ndel n = false /\
           (In n new \/ (In n old /\ forall m, In m new -> nkey m <> k))) /\
      (forall os, calls (Next :: os) e = Some (head L :: given os L)) /\
      (forall rounds, (length L < rounds)%nat -> read_all rounds e = Some L).
Proof.
  intros new old first second Sn So In. destruct (search_answers first second (QTerm new old) (conj Sn So) In) as (e&L&E&Sl&M&C&R).
  exists e, L. do 2 (split; [assumption|]). split; [|split; assumption]. intros k. rewrite M. cbn [matches]. unfold entry_of.
  split; intros (A&n&B); (split; [exact A|exists n]); tauto.
Qed.
Print Assumptions C29_posting_list_partial.

(** A list in Arrow format, read by one iterator, gives the same. *)
Theorem C29_arrow_list_partial :
  forall new old first second os,
    ascending new -> ascending old ->
    first <> [] \/ starts_inside second (QTerm new old) ->
    exists L, StronglySorted below L /\
      (forall k, In k L <-> matches first second (QTerm new old) k) /\
      a_query new old first second (map (pair true) (Next :: os)) = Some (head L :: given os L).
Proof.
  intros new old first second os Sn So In. destruct (search_answers first second (QTerm new old) (conj Sn So) In) as (e&L&E&Sl&M&C&R).
  exists L. split; [assumption|]. split; [assumption|]. destruct (a_query_one new old first second os Sn So In) as (e'&E'&->).
  rewrite <- C. congruence.
Qed.
Print Assumptions C29_arrow_list_partial.

(** A range with an end and no start: the first entry is not compared with the end, and is
    returned although it lies outside. *)
Theorem C29_first_entry_outside_the_range_refuted :
  exists new old second e k,
    ascending new /\ ascending old /\ build [] second (QTerm new old) = Some e /\
    read_all 5 e = Some [k] /\ ~ in_range [] second k.
Proof.
  exists [], [Node [7] false], [5]. eexists. exists [7].
  split; [constructor|]. split; [repeat constructor|]. split; [vm_compute; reflexivity|]. split; [vm_compute; reflexivity|].
  intros (_&[X|X]); [discriminate X|vm_compute in X; discriminate X].
Qed.
Print Assumptions C29_first_entry_outside_the_range_refuted.

(** Seeking before the first next finds nothing, although the document sought is there. *)
Theorem C29_seek_before_next_refuted :
  exists new old t e,
    ascending new /\ ascending old /\ build [] [] (QTerm new old) = Some e /\
    matches [] [] (QTerm new old) t /\ calls [Adv t] e = Some [None].
Proof.
  exists [Node [1] false], [], [1]. eexists. split; [repeat constructor|]. split; [constructor|]. split; [vm_compute; reflexivity|].
  split; [|vm_compute; reflexivity]. split; [split; left; reflexivity|]. exists (Node [1] false). split; [|reflexivity]. split; [reflexivity|left; left; reflexivity].
Qed.
Print Assumptions C29_seek_before_next_refuted.

(** Two iterators over one Arrow list, as a query that names a term twice has: moving one
    makes the other return the wrong document.  Read alone, the second would return 1. *)
Theorem C29_two_arrow_iterators_refuted :
  exists new, ascending new /\
    a_query new [] [] [] [(true, Next)] = Some [Some [1]] /\
    a_query new [] [] [] [(true, Next); (true, Adv [5]); (false, Next)] = Some [Some [1]; Some [5]; Some [5]].
Proof.
  exists [Node [1] false; Node [5] false]. split; [repeat constructor|]. split; vm_compute; reflexivity.
Qed.
Print Assumptions C29_two_arrow_iterators_refuted.

(** ** C30 *)

(** Any tree of ANDs and ORs, of any width and depth, read to the end gives exactly the
    documents of the tree, ascending, each once.  [matches] is intersection at an AND and
    union at an OR. *)
Theorem C30_boolean_query_partial :
  forall first second q,
    stored q -> first <> [] \/ starts_inside second q ->
    exists e L, build first second q = Some e /\
      StronglySorted below L /\
      (forall k, In k L <-> matches first second q k) /\
      (forall rounds, (length L < rounds)%nat -> read_all rounds e = Some L).
Proof.
  intros first second q St In. destruct (search_answers first second q St In) as (e&L&E&Sl&M&C&R). exists e, L. tauto.
Qed.
Print Assumptions C30_boolean_query_partial.

(** What the tree means: every sub-query at an AND, some sub-query at an OR. *)
Theorem C30_and_is_intersection :
  forall first second qs k, matches first second (QAnd qs) k <-> qs <> [] /\ Forall (fun q => matches first second q k) qs.
Proof.
  intros first second qs k. cbn [matches]. apply and_iff_compat_l. induction qs as [|q r IH]; [split; constructor|].
  rewrite Forall_cons_iff, <- IH. reflexivity.
Qed.
Theorem C30_or_is_union :
  forall first second qs k, matches first second (QOr qs) k <-> Exists (fun q => matches first second q k) qs.
Proof.
  intros first second qs k. cbn [matches]. induction qs as [|q r IH]; [split; [tauto|intros X; inversion X]|].
  rewrite Exists_cons, <- IH. reflexivity.
Qed.
Print Assumptions C30_and_is_intersection.
Print Assumptions C30_or_is_union.

(** Any sequence of next and seek calls that starts with next, on any tree. *)
Theorem C30_calls_partial :
  forall first second q,
    stored q -> first <> [] \/ starts_inside second q ->
    exists e L, build first second q = Some e /\
      StronglySorted below L /\ (forall k, In k L <-> matches first second q k) /\
      forall os, calls (Next :: os) e = Some (head L :: given os L).
Proof.
  intros first second q St In. destruct (search_answers first second q St In) as (e&L&E&Sl&M&C&R). exists e, L. tauto.
Qed.
Print Assumptions C30_calls_partial.

(** An OR asked to seek before the first next finds nothing either. *)
Theorem C30_seek_before_next_refuted :
  exists q t e, stored q /\ build [] [] q = Some e /\ matches [] [] q t /\ calls [Adv t] e = Some [None].
Proof.
  exists (QOr [QTerm [Node [1] false] []; QTerm [] [Node [2] false]]), [2]. eexists.
  split; [cbn; repeat split; repeat constructor|]. split; [vm_compute; reflexivity|]. split; [|vm_compute; reflexivity].
  apply C30_or_is_union. right. left. split; [split; left; reflexivity|]. exists (Node [2] false). split; [|reflexivity].
  split; [reflexivity|right; split; [left; reflexivity|intros m []]].
Qed.
Print Assumptions C30_seek_before_next_refuted.

(** The first entry outside the range reaches the answer of a boolean query too. *)
Theorem C30_first_entry_outside_the_range_refuted :
  exists q second e k, stored q /\ build [] second q = Some e /\ read_all 5 e = Some [k] /\ ~ matches [] second q k.
Proof.
  exists (QAnd [QTerm [] [Node [7] false]; QTerm [Node [7] false] []]), [5]. eexists. exists [7].
  split; [cbn; repeat split; repeat constructor|]. split; [vm_compute; reflexivity|]. split; [vm_compute; reflexivity|].
  intros (_&((_&[X|X])&_)&_); [discriminate X|vm_compute in X; discriminate X].
Qed.
Print Assumptions C30_first_entry_outside_the_range_refuted.

(** ** The hypotheses are met *)

Definition ex_new := [Node [2] false; Node [4] true; Node [9] false].
Definition ex_old := [Node [1] false; Node [2] true; Node [4] false; Node [6] false; Node [12] false].
Definition ex_q := QAnd [QTerm ex_new ex_old; QOr [QTerm [] [Node [6] false; Node [9] false]; QTerm [Node [2] false; Node [12] false] []]].

Example ex_stored : stored ex_q.
Proof. cbn. repeat split; repeat constructor. Qed.
Example ex_term : exists e, build [2] [12] (QTerm ex_new ex_old) = Some e /\
  read_all 9 e = Some [[2]; [6]; [9]] /\
  calls [Next; Adv [3]; Adv [4]; Next; Next; Next] e = Some [Some [2]; Some [6]; Some [6]; Some [9]; None; None].
Proof. eexists. split; [vm_compute; reflexivity|]. split; vm_compute; reflexivity. Qed.
Example ex_tree : exists e, build [2] [12] ex_q = Some e /\ read_all 9 e = Some [[2]; [6]; [9]].
Proof. eexists. split; vm_compute; reflexivity. Qed.
Example ex_tree_unbounded : starts_inside [] ex_q /\ exists e, build [] [] ex_q = Some e /\ read_all 9 e = Some [[2]; [6]; [9]; [12]].
Proof. split; [cbn; tauto|]. eexists. split; vm_compute; reflexivity. Qed.
Example ex_arrow : a_query ex_new ex_old [2] [12] (map (pair true) [Next; Adv [3]; Next]) = Some [Some [2]; Some [6]; Some [9]].
Proof. vm_compute; reflexivity. Qed.
