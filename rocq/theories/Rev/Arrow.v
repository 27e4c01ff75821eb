(* Posting lists stored in Arrow format (include/reverse/reverse_arrow.h 157-188): a list
   has a single node buffer, mutable_reverse_nodes(i) fills it with entry i and returns
   its address.  All iterators over a list share the buffer; a query that uses a term
   twice makes the second iterator a copy of the first (reverse_interface.hpp 81-85), so
   both share the lists.  The executors are of type NODE_COPY (reverse_common.h 362): a
   term executor copies the node it is given. *)
From Coq Require Import ZArith List Bool Lia PeanoNat.
From Verif Require Import Common.Bytes Common.KV Sort.Model Rev.Model Rev.Spec Rev.Order Rev.ProofsParser Rev.ProofsExec Rev.Proofs.
Import ListNotations.
Local Open Scope nat_scope.

(* _inner_node of the recent and of the merged list *)
Record buffers := Buffers { bnew : node; bold : node }.

(* the calls of mutable_reverse_nodes in next and advance (lines 120-130, 143-145 and
   200-209, 223-225): each list with a valid index is positioned on it *)
Definition touch (p : parser) (m : buffers) : buffers :=
  Buffers (match pixn p with Some i => match nth_error (pnew p) i with Some n => n | None => bnew m end | None => bnew m end)
          (match pixo p with Some i => match nth_error (pold p) i with Some n => n | None => bold m end | None => bold m end).

(* reading through _curr_node, which points into the buffer of the list chosen last *)
Definition deref (p : parser) (m : buffers) : option node :=
  match pcur p with
  | None => None
  | Some _ => Some (match pcmp p with Gt => bold m | _ => bnew m end)
  end.

Definition a_p_next (p : parser) (m : buffers) : option (parser * buffers) :=
  match pcur p with
  | None => Some (p, m)
  | Some _ => let* q := p_next p in Some (q, touch q m)
  end.

(* TermBooleanExecutor::next (boolean_executor.hpp 73-97) *)
Fixpoint a_next (rounds : nat) (init : bool) (p : parser) (m : buffers) : option (exec * buffers) :=
  match rounds with
  | O => None
  | S r =>
      let* (p1, m1) := (if init then Some (p, m) else a_p_next p m) in
      match deref p1 m1 with
      | None => Some (Term false p1 None, m1)
      | Some n => if ndel n then a_next r false p1 m1 else Some (Term false p1 (Some n), m1)
      end
  end.

(* TermBooleanExecutor::advance (lines 99-126) *)
Definition a_advance (p : parser) (cur : option node) (t : key) (m : buffers) : option (exec * buffers) :=
  match cur with
  | None => Some (Term false p None, m)
  | Some n =>
      if bleb t (nkey n) then Some (Term false p cur, m) else
      let* (p1, m1) := (match pcur p with None => Some (p, m) | Some _ => let* q := p_advance p t in Some (q, touch q m) end) in
      match deref p1 m1 with
      | None => Some (Term false p1 None, m1)
      | Some n1 => if ndel n1 then a_next (term_rounds p1) false p1 m1 else Some (Term false p1 (Some n1), m1)
      end
  end.

Definition a_call (o : op) (e : exec) (m : buffers) : option (exec * buffers) :=
  match e with
  | Term init p cur =>
      match o with Next => a_next (term_rounds p) init p m | Adv t => a_advance p cur t m end
  | _ => None
  end.

(* two iterators over the same term, [true] calls the first *)
Fixpoint a_calls (os : list (bool * op)) (a b : exec) (m : buffers) : option (list (option key)) :=
  match os with
  | [] => Some []
  | (true, o) :: r =>
      let* (a', m') := a_call o a m in let* rs := a_calls r a' b m' in Some (current_id a' :: rs)
  | (false, o) :: r =>
      let* (b', m') := a_call o b m in let* rs := a_calls r a b' m' in Some (current_id b' :: rs)
  end.

(* a term used twice: the iterator and its copy, with the buffers left by _init *)
Definition a_query (new old : list node) (first second : key) (os : list (bool * op)) : option (list (option key)) :=
  let* p := p_init new old first second in
  a_calls os (Term true p None) (Term true p None) (touch p (Buffers (Node [] false) (Node [] false))).

(* ---- one iterator ---- *)
Lemma deref_touch p m n : p_ok p -> pcur p = Some n -> deref p (touch p m) = Some n.
Proof.
  intros (_&_&St) E. specialize (St n E). unfold deref, touch. rewrite E. destruct St as (_&_&C). destruct (pcmp p); cbn.
  - destruct C as (i&j&b&E1&E2&_). rewrite E1, E2. reflexivity.
  - destruct C as (i&E1&E2&_). rewrite E1, E2. reflexivity.
  - destruct C as (i&E1&E2&_). rewrite E1, E2. reflexivity.
Qed.

Lemma a_next_same rounds : forall p m, p_ok p ->
  match a_next rounds false p m with Some (e, _) => term_next rounds false p = Some e | None => term_next rounds false p = None end.
Proof.
  induction rounds as [|r IH]; intros p m Ok; [reflexivity|]. cbn [a_next term_next]. unfold a_p_next.
  destruct (pcur p) as [c|] eqn:E.
  - destruct (p_next_ok p c Ok E) as (q&Eq&_&Okq&_). rewrite Eq. destruct (pcur q) as [n|] eqn:En.
    + rewrite (deref_touch q m n Okq En). destruct (ndel n); [apply IH; exact Okq|reflexivity].
    + unfold deref. rewrite En. reflexivity.
  - unfold p_next, deref. rewrite E. rewrite E. reflexivity.
Qed.

Lemma a_call_same o p cur m : good (Term false p cur) ->
  exists e m', a_call o (Term false p cur) m = Some (e, m') /\ call o (Term false p cur) = Some e.
Proof.
  intros Ge. pose proof Ge as (_&E&Ok&_). destruct (call_ok o _ Ge) as (e&Ec&_).
  assert (T : forall q m0, p_ok q -> forall e0, term_next (term_rounds q) false q = Some e0 -> exists m', a_next (term_rounds q) false q m0 = Some (e0, m')).
  { intros q m0 Okq e0 Hq. pose proof (a_next_same (term_rounds q) q m0 Okq) as X. destruct (a_next (term_rounds q) false q m0) as [[e1 m1]|]; [|congruence].
    exists m1. congruence. }
  pose proof Ec as Ec'. unfold call in Ec'. cbn [height step] in Ec'. destruct o as [|t]; cbn [a_call].
  - destruct (T p m Ok e Ec') as (m'&X). exists e, m'. split; assumption.
  - unfold a_advance. unfold term_advance in Ec'. destruct cur as [n|].
    + destruct (bleb t (nkey n)) eqn:TB; [eexists; eexists; split; [reflexivity|congruence]|]. rewrite E.
      apply bleb_below in TB. destruct (p_advance_ok p n t Ok E (below_le _ _ TB)) as (q&Eq&_&Okq&_). rewrite Eq in *.
      destruct (pcur q) as [n1|] eqn:En.
      * rewrite (deref_touch q m n1 Okq En). destruct (ndel n1).
        -- destruct (T q (touch q m) Okq e Ec') as (m'&X). exists e, m'. split; assumption.
        -- eexists; eexists. split; [reflexivity|congruence].
      * unfold deref. rewrite En. eexists; eexists. split; [reflexivity|congruence].
    + eexists; eexists. split; [reflexivity|congruence].
Qed.

Lemma a_first_same p m : fresh (Term true p None) ->
  exists e m', a_call Next (Term true p None) (touch p m) = Some (e, m') /\ call Next (Term true p None) = Some e /\ good e.
Proof.
  intros F. pose proof F as (_&_&Ok&_). destruct (call_first _ F) as (e&Ec&(Ge&_)).
  pose proof Ec as Ec'. unfold call in Ec'. cbn [height step] in Ec'. cbn [a_call]. unfold term_rounds in *. cbn [a_next term_next] in *.
  destruct (pcur p) as [n|] eqn:E.
  - rewrite (deref_touch p m n Ok E). destruct (ndel n).
    + pose proof (a_next_same (S (length (pnew p) + length (pold p))) p (touch p m) Ok) as X. cbn [a_next term_next] in X.
      match type of X with match ?t with _ => _ end => destruct t as [[e1 m1]|]; [|congruence] end. exists e1, m1. split; [reflexivity|].
      assert (e1 = e) by congruence. subst. split; assumption.
    + eexists; eexists. split; [reflexivity|]. assert (e = Term false p (Some n)) by congruence. subst e. split; assumption.
  - unfold deref. rewrite E. eexists; eexists. split; [reflexivity|]. assert (e = Term false p None) by congruence. subst e. split; assumption.
Qed.

Lemma a_calls_one os : forall p cur b m, good (Term false p cur) ->
  a_calls (map (pair true) os) (Term false p cur) b m = calls os (Term false p cur).
Proof.
  induction os as [|o os IH]; intros p cur b m Ge; [reflexivity|]. cbn [map a_calls calls].
  destruct (a_call_same o p cur m Ge) as (e&m'&E1&E2). rewrite E1, E2.
  destruct (call_ok o _ Ge) as (e'&E3&D). assert (e' = e) by congruence. subst e'.
  destruct (term_step o p cur Ge) as (e2&X&D2).
  assert (T : exists q c, e = Term false q c).
  { destruct e as [i q c|i n c s|i n c s]; [destruct D as ((-> & _)&_); eauto| |].
    all: exfalso; unfold call in E2; cbn [height step] in E2; destruct o; [|unfold term_advance in E2].
    all: assert (TN : forall r b p e', term_next r b p = Some e' -> exists q c, e' = Term false q c)
      by (clear; induction r as [|r IH]; intros b p e' E; [discriminate|]; cbn [term_next] in E;
          destruct (if b then Some p else p_next p) as [q|]; [|discriminate]; destruct (pcur q) as [m|]; [|injection E as <-; eauto];
          destruct (ndel m); [eapply IH; eauto|injection E as <-; eauto]).
    1,3: destruct (TN _ _ _ _ E2) as (?&?&Y); discriminate Y.
    all: destruct cur as [n0|]; [|discriminate E2]; destruct (bleb target (nkey n0)); [discriminate E2|];
         destruct (p_advance p target) as [q|]; [|discriminate]; destruct (pcur q) as [n1|]; [|discriminate E2];
         destruct (ndel n1); [destruct (TN _ _ _ _ E2) as (?&?&Y); discriminate Y|discriminate E2]. }
  destruct T as (q&c&->). rewrite (IH q c b m'); [reflexivity|apply D].
Qed.

Lemma a_query_one new old first second os : ascending new -> ascending old ->
  first <> [] \/ starts_inside second (QTerm new old) ->
  exists e, build first second (QTerm new old) = Some e /\
    a_query new old first second (map (pair true) (Next :: os)) = calls (Next :: os) e.
Proof.
  intros Sn So In. destruct (build_ok first second (QTerm new old) (conj (conj Sn So) In)) as (e&E&F&_). exists e. split; [exact E|].
  cbn [build] in E. unfold a_query. destruct (p_init new old first second) as [p|]; [|discriminate]. injection E as <-.
  cbn [map a_calls calls]. destruct (a_first_same p (Buffers (Node [] false) (Node [] false)) F) as (e&m'&E1&E2&Ge). rewrite E1, E2.
  assert (T : exists q c, e = Term false q c).
  { clear -E2. unfold call in E2. cbn [height step] in E2. revert E2. generalize (term_rounds p). generalize true. intros b r. revert b p.
    induction r as [|r IH]; intros b p E; [discriminate|]; cbn [term_next] in E.
    destruct (if b then Some p else p_next p) as [q|]; [|discriminate]; destruct (pcur q) as [m|]; [|injection E as <-; eauto].
    destruct (ndel m); [eapply IH; eauto|injection E as <-; eauto]. }
  destruct T as (q&c&->). rewrite (a_calls_one os q c _ m' Ge). reflexivity.
Qed.
