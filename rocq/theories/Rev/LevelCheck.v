(* A decision procedure for [orderly], for examples. *)
From Coq Require Import ZArith List Bool Lia Sorted.
From Verif Require Import Common.Bytes Common.KV Rev.Model Rev.Spec Rev.Order Rev.LevelModel Rev.LevelSpec Rev.LevelProofs.
Import ListNotations.
Local Open Scope nat_scope.

Definition plainb (t : term) : bool := forallb (fun b => (0 <? b)%Z && (b <? 256)%Z) t && bltb t bound.
Fixpoint separateb (p q : key) : bool :=
  match p, q with
  | [], [] => true
  | [], _ => false
  | a :: p, b :: q => if (a =? b)%Z then separateb p q else true
  | _ :: _, [] => true
  end.
Definition time_okb (w : wr) : bool := ((-9223372036854775808 <=? w_time w) && (w_time w <=? 9223372036854775807))%Z.
Definition sameb (v w : wr) : bool := concerns (w_term v) (w_pk v) w.
Fixpoint pairsb (ws : list wr) : bool :=
  match ws with [] => true | v :: r => forallb (fun w => negb (sameb v w) || (w_time v <=? w_time w)%Z) r && pairsb r end.
Definition shrinksb (n o : key * key) : bool :=
  match fst o with [] => true | _ => match fst n with [] => false | _ => bleb (fst o) (fst n) end end &&
  match snd o with [] => true | _ => match snd n with [] => false | _ => bleb (snd n) (snd o) end end.
Fixpoint orderlyb (old : list wr) (rg : key * key) (es : list event) : bool :=
  match es with
  | [] => true
  | Write ws :: r =>
      forallb (fun w => plainb (w_term w) && time_okb w) ws &&
      forallb (fun v => forallb (fun w => separateb (w_pk v) (w_pk w)) (old ++ ws)) (old ++ ws) &&
      forallb (fun v => forallb (fun w => negb (sameb v w) || (w_time v <? w_time w)%Z) ws) old &&
      pairsb ws && orderlyb (old ++ ws) rg r
  | Range rg' :: r => shrinksb rg' rg && orderlyb old rg' r
  | _ :: r => orderlyb old rg r
  end.

Lemma plainb_ok t : plainb t = true -> plain t.
Proof.
  unfold plainb, plain. rewrite andb_true_iff, forallb_forall. intros [A B]. split.
  - apply Forall_forall. intros b I1. specialize (A b I1). lia.
  - unfold bltb in B. unfold below. destruct (bcompare t bound); congruence.
Qed.
Lemma separateb_ok p : forall q, separateb p q = true -> separate p q.
Proof.
  unfold separate. induction p as [|a p IH]; intros [|b q] E r; cbn in *; intros X; try congruence.
  injection X as -> X. rewrite Z.eqb_refl in E. eapply IH; eauto.
Qed.
Lemma sameb_iff v w : sameb v w = true <-> same_entry v w.
Proof. unfold sameb, same_entry. rewrite concerns_iff. split; intros [A B]; split; congruence. Qed.
Lemma pairsb_ok ws : pairsb ws = true -> ForallOrdPairs (fun v w => same_entry v w -> (w_time v <= w_time w)%Z) ws.
Proof.
  induction ws as [|v ws IH]; cbn [pairsb]; intros E; constructor; apply andb_true_iff in E; destruct E as [A B]; [|auto].
  rewrite forallb_forall in A. apply Forall_forall. intros w I1 X. specialize (A w I1). apply sameb_iff in X. rewrite X in A. cbn in A. lia.
Qed.
Lemma shrinksb_ok n o : shrinksb n o = true -> forall k, in_range (fst n) (snd n) k -> in_range (fst o) (snd o) k.
Proof.
  destruct n as [n1 n2], o as [o1 o2]. unfold shrinksb, in_range. cbn [fst snd]. rewrite andb_true_iff. intros [A B] k [C D]. split.
  - destruct o1; [left; reflexivity|right]. destruct n1; [discriminate|]. apply bleb_upto in A. destruct C as [C|C]; [discriminate C|]. eapply upto_trans; eauto.
  - destruct o2; [left; reflexivity|right]. destruct n2; [discriminate|]. apply bleb_upto in B. destruct D as [D|D]; [discriminate D|]. eapply below_upto; eauto.
Qed.
Lemma orderlyb_ok es : forall old rg, orderlyb old rg es = true -> orderly old rg es.
Proof.
  induction es as [|e es IH]; intros old rg E; [exact Logic.I|]. destruct e; cbn [orderlyb orderly] in *; auto.
  - rewrite !andb_true_iff in E. destruct E as [[[[A B] C] D] E]. rewrite forallb_forall in A, B, C. split; [|split; [|split; [|split]]].
    + apply Forall_forall. intros w I1. specialize (A w I1). apply andb_true_iff in A. split; [apply plainb_ok; apply A|]. destruct A as [_ A]. unfold time_okb in A. unfold time_ok. lia.
    + intros v w Iv Iw. specialize (B v Iv). rewrite forallb_forall in B. apply separateb_ok. apply B. exact Iw.
    + intros v w Iv Iw X. specialize (C v Iv). rewrite forallb_forall in C. specialize (C w Iw). apply sameb_iff in X. rewrite X in C. cbn in C. lia.
    + apply pairsb_ok. exact D.
    + auto.
  - apply andb_true_iff in E. destruct E as [A B]. split; [apply shrinksb_ok; exact A|auto].
Qed.
