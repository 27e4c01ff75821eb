(* An ordered key-value store keyed by byte strings: what the models use for a
   RocksDB column family.  It is a list strictly sorted by key; only the most recent
   committed value of a key is kept (sequence numbers, files and levels of RocksDB are
   not modelled). *)
From Verif.Common Require Import Bytes.
From Coq Require Import Sorted.
Local Open Scope Z_scope.

Section KV.
Context {V : Type}.
Definition kv := list (list Z * V).

(* Get *)
Fixpoint kget (k : list Z) (s : kv) : option V :=
  match s with [] => None | (k', v) :: s' => match bcompare k k' with Eq => Some v | _ => kget k s' end end.
(* Put *)
Fixpoint kput (k : list Z) (v : V) (s : kv) : kv :=
  match s with
  | [] => [(k, v)]
  | (k', v') :: s' => match bcompare k k' with
                      | Lt => (k, v) :: s
                      | Eq => (k, v) :: s'
                      | Gt => (k', v') :: kput k v s' end
  end.
Definition kfilter (keep : list Z -> bool) (s : kv) : kv := filter (fun kv => keep (fst kv)) s.
Definition beqb (a b : list Z) : bool := match bcompare a b with Eq => true | _ => false end.
Definition bltb (a b : list Z) : bool := match bcompare a b with Lt => true | _ => false end.
Definition bleb (a b : list Z) : bool := match bcompare a b with Gt => false | _ => true end.
(* Delete and DeleteRange [a,b) *)
Definition kdel (k : list Z) (s : kv) : kv := kfilter (fun k' => negb (beqb k' k)) s.
Definition kdel_range (a b : list Z) (s : kv) : kv := kfilter (fun k => negb (bleb a k && bltb k b)) s.
(* the records from the first key >= k on, in key order: Iterator::Seek and Next *)
Definition kseek (k : list Z) (s : kv) : kv := kfilter (fun k' => bleb k k') s.

Definition klt (a b : list Z * V) : Prop := bcompare (fst a) (fst b) = Lt.
Definition ksorted (s : kv) : Prop := StronglySorted klt s.

Lemma beqb_eq a b : beqb a b = true <-> a = b.
Proof. unfold beqb. rewrite <- bcompare_eq. destruct (bcompare a b); split; congruence. Qed.
Lemma bleb_total a b : bleb a b = false -> bleb b a = true.
Proof. unfold bleb. rewrite (bcompare_antisym a b). destruct (bcompare a b); cbn; congruence. Qed.

Lemma kget_none k s : Forall (fun e => bcompare k (fst e) = Lt) s -> kget k s = None.
Proof. induction 1 as [|[k' v] s H F IH]; cbn; auto. cbn in H. rewrite H. auto. Qed.

Lemma kput_all P k v s : Forall P s -> P (k, v) -> Forall P (kput k v s).
Proof.
  induction 1 as [|[k' v'] s H F IH]; cbn; intros HP; [constructor; auto|].
  destruct (bcompare k k'); constructor; auto.
Qed.
Lemma kput_sorted k v s : ksorted s -> ksorted (kput k v s).
Proof.
  unfold ksorted. induction s as [|[k' v'] s IH]; cbn; intros H; [repeat constructor|]. inversion H; subst.
  destruct (bcompare k k') eqn:C.
  - apply bcompare_eq in C. subst. constructor; auto.
  - constructor; [constructor; auto|]. constructor; [exact C|]. eapply Forall_impl; [|exact H3].
    intros [k2 v2] L. unfold klt in *. cbn in *. eapply bcompare_lt_trans; eauto.
  - constructor; auto. apply kput_all; auto. unfold klt. cbn. rewrite (bcompare_antisym k k'), C. reflexivity.
Qed.
Lemma kfilter_sorted f s : ksorted s -> ksorted (kfilter f s).
Proof.
  unfold ksorted, kfilter. induction 1 as [|e s H IH F]; cbn; [constructor|].
  destruct (f (fst e)); auto. constructor; auto. rewrite Forall_forall in *. intros x I. apply filter_In in I. apply F. tauto.
Qed.
Lemma kget_filter f k s : ksorted s -> kget k (kfilter f s) = if f k then kget k s else None.
Proof.
  unfold ksorted, kfilter. induction 1 as [|[k' v'] s H IH F]; cbn; [destruct (f k); auto|].
  destruct (f k') eqn:E; cbn.
  - destruct (bcompare k k') eqn:C; auto. apply bcompare_eq in C. subst. rewrite E. auto.
  - rewrite IH. destruct (f k) eqn:E2; auto. destruct (bcompare k k') eqn:C; auto.
    apply bcompare_eq in C. subst. congruence.
Qed.
Lemma kget_put k v j s : ksorted s -> kget j (kput k v s) = if beqb j k then Some v else kget j s.
Proof.
  unfold ksorted. induction 1 as [|[k' v'] s H IH F]; cbn.
  - unfold beqb. destruct (bcompare j k); auto.
  - destruct (bcompare k k') eqn:C; cbn.
    + apply bcompare_eq in C. subst. unfold beqb. destruct (bcompare j k') eqn:C2; auto.
    + unfold beqb. destruct (bcompare j k); auto.
    + rewrite IH. unfold beqb. destruct (bcompare j k') eqn:C2; auto.
      apply bcompare_eq in C2. subst. destruct (bcompare k' k) eqn:C3; auto.
      apply bcompare_eq in C3. subst. rewrite bcompare_refl in C. discriminate.
Qed.
Lemma kget_in k v s : ksorted s -> kget k s = Some v <-> In (k, v) s.
Proof.
  unfold ksorted. induction 1 as [|[k' v'] s H IH F]; cbn; [split; [discriminate|tauto]|].
  destruct (bcompare k k') eqn:C.
  - apply bcompare_eq in C. subst. split; [intros E; inversion E; auto|]. intros [E|I]; [congruence|].
    rewrite Forall_forall in F. apply F in I. unfold klt in I. cbn in I. rewrite bcompare_refl in I. discriminate.
  - rewrite IH. split; [auto|]. intros [E|I]; auto. inversion E; subst. rewrite bcompare_refl in C. discriminate.
  - rewrite IH. split; [auto|]. intros [E|I]; auto. inversion E; subst. rewrite bcompare_refl in C. discriminate.
Qed.
(* a strictly sorted list is determined by its elements *)
Lemma ksorted_ext s : forall t, ksorted s -> ksorted t -> (forall e, In e s <-> In e t) -> s = t.
Proof.
  unfold ksorted. induction s as [|a s IH]; intros [|b t] HS HT E.
  - auto.
  - exfalso. apply (E b). left. auto.
  - exfalso. apply (E a). left. auto.
  - inversion HS; subst. inversion HT; subst. rewrite Forall_forall in *.
    assert (a = b).
    { destruct (proj1 (E a) (or_introl eq_refl)) as [|I1]; auto.
      destruct (proj2 (E b) (or_introl eq_refl)) as [|I2]; auto.
      apply H4 in I1. apply H2 in I2. unfold klt in *. rewrite (bcompare_antisym (fst a) (fst b)), I2 in I1. discriminate. }
    subst b. f_equal. apply IH; auto. intros e. specialize (E e). cbn in E.
    split; intros I.
    + destruct (proj1 E (or_intror I)) as [->|]; auto. apply H2 in I. unfold klt in I. rewrite bcompare_refl in I. discriminate.
    + destruct (proj2 E (or_intror I)) as [->|]; auto. apply H4 in I. unfold klt in I. rewrite bcompare_refl in I. discriminate.
Qed.
End KV.
Arguments kv V : clear implicits.
