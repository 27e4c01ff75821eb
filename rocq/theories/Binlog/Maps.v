(* Sorted maps. *)
From Coq Require Import List ZArith Bool Lia Sorting.Sorted.
From Verif Require Import Binlog.Spec Binlog.Model.
Import ListNotations.
Open Scope Z_scope.

Definition keys {V} (m : list (Z * V)) : list Z := map fst m.
Definition sorted {V} (m : list (Z * V)) : Prop := StronglySorted Z.lt (keys m).

Section Maps.
Context {V : Type}.
Implicit Types m : list (Z * V).

Lemma put_keys k v m x : In x (keys (put k v m)) <-> x = k \/ In x (keys m).
Proof.
  induction m as [|[k' v'] m IH]; cbn; [intuition|].
  destruct (k <? k') eqn:E; [cbn; intuition|].
  destruct (k =? k') eqn:E2; cbn.
  - apply Z.eqb_eq in E2. subst. intuition.
  - unfold keys in *. intuition.
Qed.

Lemma put_sorted k v m : sorted m -> sorted (put k v m).
Proof.
  unfold sorted. induction m as [|[k' v'] m IH]; intros Hs; cbn.
  - repeat constructor.
  - cbn in Hs. inversion Hs as [|? ? Hs' Hf]; subst.
    destruct (k <? k') eqn:E; [|destruct (k =? k') eqn:E2]; cbn.
    + constructor; [constructor; auto|]. constructor; [lia|]. apply Forall_impl with (2 := Hf). intros; lia.
    + apply Z.eqb_eq in E2. subst. constructor; auto.
    + constructor; [apply IH; auto|]. apply Forall_forall. intros x Hx. apply put_keys in Hx.
      rewrite Forall_forall in Hf. destruct Hx as [->|Hx]; [lia|auto].
Qed.

Lemma put_get k v m x : get x (put k v m) = if x =? k then Some v else get x m.
Proof.
  induction m as [|[k' v'] m IH]; cbn.
  - destruct (x =? k); auto.
  - destruct (k <? k') eqn:E; [|destruct (k =? k') eqn:E2]; cbn.
    + destruct (x =? k) eqn:E3; auto.
    + apply Z.eqb_eq in E2. subst. destruct (x =? k'); auto.
    + destruct (x =? k') eqn:E3.
      * apply Z.eqb_eq in E3. subst. rewrite Z.eqb_sym in E2. now rewrite E2.
      * exact IH.
Qed.

Lemma get_in k v m : get k m = Some v -> In (k, v) m.
Proof.
  induction m as [|[k' v'] m IH]; cbn; [discriminate|]. destruct (k =? k') eqn:E.
  - apply Z.eqb_eq in E. intros [= ->]. left. congruence.
  - auto.
Qed.

Lemma in_get k v m : sorted m -> In (k, v) m -> get k m = Some v.
Proof.
  unfold sorted. induction m as [|[k' v'] m IH]; intros Hs Hin; [easy|]. cbn in *.
  inversion Hs as [|? ? Hs' Hf]; subst. destruct Hin as [E|Hin].
  - injection E as -> ->. now rewrite Z.eqb_refl.
  - destruct (k =? k') eqn:E; [|auto]. apply Z.eqb_eq in E. subst.
    rewrite Forall_forall in Hf. specialize (Hf k' (in_map fst _ _ Hin)). lia.
Qed.

Lemma get_keys k m : In k (keys m) <-> exists v, get k m = Some v.
Proof.
  induction m as [|[k' v'] m IH]; cbn.
  - split; [easy|intros [? [=]]].
  - destruct (k =? k') eqn:E.
    + apply Z.eqb_eq in E. subst. intuition eauto.
    + apply Z.eqb_neq in E. unfold keys in IH. rewrite <- IH. intuition; congruence.
Qed.

Lemma filter_sorted f m : sorted m -> sorted (filter f m).
Proof.
  unfold sorted. induction m as [|[k v] m IH]; intros Hs; cbn; [constructor|].
  cbn in Hs. inversion Hs as [|? ? Hs' Hf]; subst. destruct (f (k, v)); cbn; auto.
  constructor; auto. apply Forall_forall. intros x Hx. rewrite Forall_forall in Hf. apply Hf.
  unfold keys in Hx. apply in_map_iff in Hx as (y & <- & Hy). apply filter_In in Hy as [Hy _]. now apply in_map.
Qed.

Lemma del_sorted k m : sorted m -> sorted (del k m).
Proof. apply filter_sorted. Qed.

Lemma del_get k m x : get x (del k m) = if x =? k then None else get x m.
Proof.
  unfold del. induction m as [|[k' v'] m IH]; cbn; [now destruct (x =? k)|].
  destruct (k' =? k) eqn:E; cbn.
  - apply Z.eqb_eq in E. subst. rewrite IH. destruct (x =? k) eqn:E2; auto.
  - destruct (x =? k') eqn:E3; auto. apply Z.eqb_eq in E3. subst. now rewrite E.
Qed.

Lemma del_keys k m x : In x (keys (del k m)) -> In x (keys m) /\ x <> k.
Proof.
  unfold keys, del. intros H0. apply in_map_iff in H0 as (y & <- & Hy). apply filter_In in Hy as [Hy Hn].
  split; [now apply in_map|]. intros E. rewrite E, Z.eqb_refl in Hn. discriminate.
Qed.
End Maps.

Lemma first_key_le m d x : sorted m -> In x (keys m) -> first_key m d <= x.
Proof.
  destruct m as [|[k v] m]; [easy|]. unfold sorted. cbn. intros Hs [<-|Hin]; [lia|].
  inversion Hs as [|? ? ? Hf]; subst. rewrite Forall_forall in Hf. specialize (Hf x Hin). lia.
Qed.

Lemma first_key_in m d : first_key m d = d /\ m = [] \/ In (first_key m d) (keys m).
Proof. destruct m as [|[k v] m]; cbn; auto. Qed.

Lemma drop_fakes_suffix m : exists a, m = a ++ drop_fakes m.
Proof.
  induction m as [|[k v] m [a IH]]; [now exists []|]. cbn.
  destruct v; [|now exists []| |]; eexists (_ :: a); cbn; f_equal; exact IH.
Qed.

Lemma drop_fakes_sorted m : sorted m -> sorted (drop_fakes m).
Proof.
  unfold sorted. induction m as [|[k v] m IH]; cbn; intros Hs; [constructor|].
  inversion Hs as [|? ? Hs' Hf]; subst. destruct v; auto.
Qed.

Lemma drop_fakes_keys m x : In x (keys (drop_fakes m)) -> In x (keys m).
Proof. induction m as [|[k v] m IH]; cbn; [auto|]. destruct v; cbn; auto. Qed.

Lemma drop_fakes_get m x : sorted m -> get x m = Some Prewrite -> get x (drop_fakes m) = Some Prewrite.
Proof.
  induction m as [|[k v] m IH]; cbn; [auto|]. unfold sorted. cbn. intros Hs G.
  inversion Hs as [|? ? Hs' Hf]; subst. destruct (x =? k) eqn:E.
  - injection G as ->. cbn. now rewrite E.
  - destruct v; try (now apply IH). cbn. now rewrite E.
Qed.

Lemma drop_fakes_get_rev m x : sorted m -> get x (drop_fakes m) = Some Prewrite -> get x m = Some Prewrite.
Proof.
  intros Hs G. apply in_get; auto. apply get_in in G. destruct (drop_fakes_suffix m) as [a E].
  rewrite E. apply in_app_iff. auto.
Qed.

Lemma drop_fakes_first m k v rest : drop_fakes m = (k, v) :: rest -> v = Prewrite.
Proof. induction m as [|[k' v'] m IH]; cbn; [discriminate|]. destruct v'; auto. congruence. Qed.
