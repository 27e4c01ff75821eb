(* The order of keys, and a tactic for it. *)
From Coq Require Import ZArith List Bool Sorted Lia.
From Verif Require Import Common.Bytes Common.KV Rev.Model Rev.Spec.
Import ListNotations.

Lemma below_trans a b c : below a b -> below b c -> below a c.
Proof. apply bcompare_lt_trans. Qed.
Lemma below_irrefl a : ~ below a a.
Proof. unfold below. rewrite bcompare_refl. discriminate. Qed.
Lemma upto_cases a b : upto a b <-> below a b \/ a = b.
Proof.
  unfold upto, below. rewrite <- (bcompare_eq a b). destruct (bcompare a b); split; intros; try tauto; try discriminate; try (right; reflexivity).
  all: try (left; reflexivity). all: try (destruct H; discriminate). all: exfalso; apply H; reflexivity.
Qed.
Lemma not_below a b : ~ below a b <-> upto b a.
Proof.
  unfold upto, below. rewrite (bcompare_antisym a b). destruct (bcompare a b); cbn; split; intros; try discriminate; try tauto; intros X; discriminate.
Qed.
Lemma not_upto a b : ~ upto a b <-> below b a.
Proof.
  unfold upto, below. rewrite (bcompare_antisym a b). destruct (bcompare a b); cbn; split; intros; try discriminate; try tauto; try (exfalso; apply H; discriminate).
Qed.
Lemma upto_refl a : upto a a.
Proof. apply upto_cases. tauto. Qed.
Lemma upto_below a b c : upto a b -> below b c -> below a c.
Proof. rewrite upto_cases. intros [X | ->]; [apply below_trans; exact X|auto]. Qed.
Lemma below_upto a b c : below a b -> upto b c -> below a c.
Proof. rewrite upto_cases. intros X [Y | <-]; [eapply below_trans; eauto|auto]. Qed.
Lemma upto_trans a b c : upto a b -> upto b c -> upto a c.
Proof. intros X Y. apply upto_cases in X. destruct X as [X | ->]; [|exact Y]. apply upto_cases. left. eapply below_upto; eauto. Qed.
Lemma upto_antisym a b : upto a b -> upto b a -> a = b.
Proof. intros X Y. apply upto_cases in X. destruct X as [X|X]; [|exact X]. apply not_upto in X. contradiction. Qed.
Lemma below_le a b : below a b -> upto a b.
Proof. intros X. apply upto_cases. tauto. Qed.
Lemma below_or a b : below a b \/ upto b a.
Proof. unfold below, upto. rewrite (bcompare_antisym a b). destruct (bcompare a b); cbn; [right|left|right]; try reflexivity; discriminate. Qed.
Lemma nil_upto a : upto [] a.
Proof. unfold upto. destruct a; cbn; discriminate. Qed.

Lemma bltb_below a b : bltb a b = true <-> below a b.
Proof. unfold bltb, below. destruct (bcompare a b); split; congruence. Qed.
Lemma bltb_upto a b : bltb a b = false <-> upto b a.
Proof. rewrite <- not_below, <- bltb_below. destruct (bltb a b); split; congruence. Qed.
Lemma bleb_upto a b : bleb a b = true <-> upto a b.
Proof. unfold bleb, upto. destruct (bcompare a b); split; congruence. Qed.
Lemma bleb_below a b : bleb a b = false <-> below b a.
Proof. rewrite <- not_upto, <- bleb_upto. destruct (bleb a b); split; congruence. Qed.

Ltac has P := match goal with _ : P |- _ => idtac end.
Ltac learn P H := first [has P; fail 1 | pose proof (H : P)].
(* closes goals that follow from the order facts in the context *)
Ltac korder :=
  repeat match goal with
  | H : ~ below _ _ |- _ => apply not_below in H
  | H : ~ upto _ _ |- _ => apply not_upto in H
  | |- ~ _ => intros ?
  end;
  try match goal with
  | |- below ?a ?b => destruct (below_or a b) as [|]; [assumption|exfalso]
  | |- upto ?a ?b => destruct (below_or b a) as [|]; [exfalso|assumption]
  | |- @eq _ ?a ?b => apply upto_antisym; [destruct (below_or b a) as [|]; [exfalso|assumption]|destruct (below_or a b) as [|]; [exfalso|assumption]]
  end;
  try exfalso; subst;
  repeat match goal with
  | H1 : below ?a ?b, H2 : below ?b ?c |- _ => learn (below a c) (below_trans a b c H1 H2)
  | H1 : upto ?a ?b, H2 : below ?b ?c |- _ => learn (below a c) (upto_below a b c H1 H2)
  | H1 : below ?a ?b, H2 : upto ?b ?c |- _ => learn (below a c) (below_upto a b c H1 H2)
  | H1 : upto ?a ?b, H2 : upto ?b ?c |- _ => learn (upto a c) (upto_trans a b c H1 H2)
  | H : below ?a ?a |- _ => exact (below_irrefl a H)
  end.
