(* Playing a history: used to show that concrete worlds can be reached. *)
From Coq Require Import List ZArith Bool Relations.
From Verif Require Import Binlog.Spec.
Import ListNotations.
Open Scope Z_scope.

Inductive act := AIssue (t : Z) (u : use) | ADecide (s : Z) (d : option Z) | APrewrite (s n : Z) (v : nat)
  | ACommit (s c n : Z) | ARollback (s : Z) | ARollbackLate (s t : Z) | AFake (t : Z).

Definition use_eqb (a b : use) : bool :=
  match a, b with
  | UStart v, UStart v' => Nat.eqb v v'
  | UCommit s, UCommit s' => s =? s'
  | UFake, UFake => true
  | URoll s, URoll s' => s =? s'
  | _, _ => false
  end.
Definition drawn (w : world) (t : Z) (u : use) : bool := existsb (fun p => (fst p =? t) && use_eqb (snd p) u) (issued w).
Definition decision_eqb (a b : option Z) : bool :=
  match a, b with Some x, Some y => x =? y | None, None => true | _, _ => false end.
Definition taken (w : world) (s : Z) (d : option Z) : bool :=
  existsb (fun p => (fst p =? s) && decision_eqb (snd p) d) (decided w).
Definition is_prewrite (s : Z) (o : op) : bool := match o_kind o with Prewrite => o_ts o =? s | _ => false end.

Definition play (w : world) (a : act) : option world :=
  match a with
  | AIssue t u =>
      if (clock w <? t) && match u with UCommit s => existsb (is_prewrite s) (log w) | _ => true end
      then Some (W t ((t, u) :: issued w) (decided w) (log w)) else None
  | ADecide s d =>
      if negb (existsb (fun p => fst p =? s) (decided w)) && match d with Some c => drawn w c (UCommit s) | None => true end
      then Some (W (clock w) (issued w) ((s, d) :: decided w) (log w)) else None
  | APrewrite s n v => if drawn w s (UStart v) then Some (append w (Op Prewrite s s n v)) else None
  | ACommit s c n => if taken w s (Some c) then Some (append w (Op Commit c s n 0)) else None
  | ARollback s =>
      if taken w s None && existsb (fun p => (fst p =? s) && match snd p with UStart _ => true | _ => false end) (issued w)
      then Some (append w (Op Rollback s s 0 0)) else None
  | ARollbackLate s t =>
      if taken w s None && drawn w t (URoll s) && (s <? t) then Some (append w (Op Rollback t s 0 0)) else None
  | AFake t => if drawn w t UFake then Some (append w (Op Fake t (-1) 0 0)) else None
  end.

Fixpoint plays (w : world) (l : list act) : option world :=
  match l with [] => Some w | a :: rest => match play w a with Some w' => plays w' rest | None => None end end.

Lemma use_eqb_eq a b : use_eqb a b = true -> a = b.
Proof.
  destruct a, b; cbn; try discriminate; auto; intros E; f_equal; (now apply Nat.eqb_eq) || now apply Z.eqb_eq.
Qed.
Lemma drawn_in w t u : drawn w t u = true -> In (t, u) (issued w).
Proof.
  intros E. apply existsb_exists in E as ([x y] & Hin & E). cbn in E. apply andb_true_iff in E as [E1 E2].
  apply Z.eqb_eq in E1 as ->. now apply use_eqb_eq in E2 as ->.
Qed.
Lemma taken_in w s d : taken w s d = true -> In (s, d) (decided w).
Proof.
  intros E. apply existsb_exists in E as ([x y] & Hin & E). cbn in E. apply andb_true_iff in E as [E1 E2].
  apply Z.eqb_eq in E1 as ->. destruct y, d; try discriminate; auto. cbn in E2. now apply Z.eqb_eq in E2 as ->.
Qed.

Lemma play_step w a w' : play w a = Some w' -> step w w'.
Proof.
  destruct a; cbn.
  - destruct ((clock w <? t) && _) eqn:E; [|discriminate]. intros X. injection X as <-. apply andb_true_iff in E as [E1 E2].
    apply s_issue; [now apply Z.ltb_lt|]. destruct u; auto. apply existsb_exists in E2 as (o & Ho & E2).
    unfold is_prewrite in E2. exists o. destruct (o_kind o) eqn:K; try discriminate. apply Z.eqb_eq in E2. auto.
  - destruct (negb _ && _) eqn:E; [|discriminate]. intros X. injection X as <-. apply andb_true_iff in E as [E1 E2].
    apply s_decide.
    + intros d' Hin. apply negb_true_iff in E1. assert (existsb (fun p => fst p =? s) (decided w) = true); [|congruence].
      apply existsb_exists. exists (s, d'). split; auto. apply Z.eqb_refl.
    + destruct d; auto. now apply drawn_in.
  - destruct (drawn w s (UStart v)) eqn:E; [|discriminate]. intros X. injection X as <-. apply s_prewrite. now apply drawn_in.
  - destruct (taken w s (Some c)) eqn:E; [|discriminate]. intros X. injection X as <-. apply s_commit. now apply taken_in.
  - destruct (taken w s None && _) eqn:E; [|discriminate]. intros X. injection X as <-. apply andb_true_iff in E as [E1 E2].
    apply s_rollback_start; [now apply taken_in|]. apply existsb_exists in E2 as ([x y] & Hin & E2).
    cbn in E2. apply andb_true_iff in E2 as [E2 E3]. apply Z.eqb_eq in E2 as ->. destruct y; try discriminate. eauto.
  - destruct (taken w s None && _ && _) eqn:E; [|discriminate]. intros X. injection X as <-.
    apply andb_true_iff in E as [E E3]. apply andb_true_iff in E as [E1 E2].
    apply s_rollback_late; [now apply taken_in|now apply drawn_in|now apply Z.ltb_lt].
  - destruct (drawn w t UFake) eqn:E; [|discriminate]. intros X. injection X as <-. apply s_fake. now apply drawn_in.
Qed.

Lemma plays_reachable l w : plays world0 l = Some w -> reachable w.
Proof.
  unfold reachable. assert (Q : forall l w0, clos_refl_trans_n1 world step world0 w0 -> plays w0 l = Some w ->
    clos_refl_trans_n1 world step world0 w).
  { clear l. induction l as [|a l IH]; cbn; intros w0 R E.
    - now injection E as <-.
    - destruct (play w0 a) as [w1|] eqn:P; [|discriminate]. apply (IH w1); auto.
      apply Relation_Operators.rtn1_trans with w0; auto. now apply play_step with a. }
  apply Q. constructor.
Qed.

Fixpoint settledb (l : list op) : bool :=
  match l with
  | [] => true
  | p :: rest =>
      match o_kind p with
      | Prewrite => existsb (fun o => match o_kind o with Commit | Rollback => o_start o =? o_ts p | _ => false end) rest
      | _ => true
      end && settledb rest
  end.

Lemma settledb_ok l : settledb l = true -> settled l.
Proof.
  induction l as [|x l IH]; intros E l1 p l2 EL K; [now destruct l1|].
  cbn [settledb] in E. apply andb_true_iff in E as [E1 E2]. destruct l1 as [|y l1]; cbn in EL; injection EL as -> EL.
  - rewrite K in E1. apply existsb_exists in E1 as (o & Ho & E1). exists o. subst l2. split; auto.
    destruct (o_kind o); try discriminate; apply Z.eqb_eq in E1; auto.
  - apply (IH E2 l1 p l2); auto.
Qed.
