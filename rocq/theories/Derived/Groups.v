(* Facts about keeping the first of equal elements, grouping and sorting. *)
From Coq Require Import List ZArith Bool Arith Lia.
From Verif Require Import Derived.Spec Derived.Model.
Import ListNotations.

Lemma key_eqb_true a b : key_eqb a b = true <-> a = b.
Proof. unfold key_eqb. destruct (key_eq_dec a b); split; congruence. Qed.
Lemma key_eqb_refl a : key_eqb a a = true.
Proof. now apply key_eqb_true. Qed.
Lemma key_eqb_sym a b : key_eqb a b = key_eqb b a.
Proof. unfold key_eqb. destruct (key_eq_dec a b), (key_eq_dec b a); congruence. Qed.

Lemma filter_filter {A} (f g : A -> bool) l : filter f (filter g l) = filter (fun x => g x && f x) l.
Proof. induction l as [|x l IH]; cbn; auto. destruct (g x); cbn; destruct (f x); cbn; now rewrite IH. Qed.
Lemma filter_comm {A} (f g : A -> bool) l : filter f (filter g l) = filter g (filter f l).
Proof. rewrite !filter_filter. apply filter_ext. intros x. apply andb_comm. Qed.
Lemma filter_map {A B} (f : A -> B) (p : B -> bool) l : filter p (map f l) = map f (filter (fun x => p (f x)) l).
Proof. induction l as [|x l IH]; cbn; auto. destruct (p (f x)); cbn; now rewrite IH. Qed.
Lemma filter_concat {A} (p : A -> bool) l : filter p (concat l) = concat (map (filter p) l).
Proof. induction l as [|x l IH]; cbn; auto. now rewrite filter_app, IH. Qed.
Lemma filter_true {A} (p : A -> bool) l : (forall x, In x l -> p x = true) -> filter p l = l.
Proof. induction l as [|x l IH]; cbn; intros E; auto. rewrite E by auto. f_equal. auto. Qed.
Lemma filter_false {A} (p : A -> bool) l : (forall x, In x l -> p x = false) -> filter p l = [].
Proof. induction l as [|x l IH]; cbn; intros E; auto. rewrite E by auto. auto. Qed.

(* ---------- distinct ---------- *)
Lemma distinct_in l x : In x (distinct l) <-> In x l.
Proof.
  induction l as [|y l IH]; cbn; [tauto|]. rewrite filter_In, IH. split.
  - intuition.
  - intros [E|E]; auto. destruct (key_eqb y x) eqn:K; auto.
    apply key_eqb_true in K. auto.
Qed.

Lemma distinct_filter p l : distinct (filter p l) = filter p (distinct l).
Proof.
  induction l as [|x l IH]; cbn; auto. destruct (p x) eqn:E; cbn.
  - now rewrite IH, filter_comm.
  - rewrite IH. rewrite filter_filter. apply filter_ext_in. intros y _.
    destruct (key_eqb x y) eqn:K; cbn; auto. apply key_eqb_true in K. now subst.
Qed.

Lemma distinct_nodup l : NoDup (distinct l).
Proof.
  induction l as [|x l IH]; cbn; constructor.
  - rewrite filter_In. intros [_ E]. now rewrite key_eqb_refl in E.
  - now apply NoDup_filter.
Qed.

Lemma distinct_id l : NoDup l -> distinct l = l.
Proof.
  induction 1 as [|x l N _ IH]; cbn; auto. rewrite IH. f_equal. apply filter_true.
  intros y Hy. apply negb_true_iff. destruct (key_eqb x y) eqn:K; auto. apply key_eqb_true in K. now subst.
Qed.

Lemma distinct_app l k :
  distinct (l ++ k) = distinct l ++ filter (fun x => negb (existsb (key_eqb x) l)) (distinct k).
Proof.
  induction l as [|x l IH]; cbn.
  - symmetry. apply filter_true. auto.
  - rewrite IH, filter_app, filter_filter. f_equal. f_equal. apply filter_ext. intros y.
    rewrite negb_orb, andb_comm. now rewrite (key_eqb_sym x y).
Qed.

Lemma existsb_distinct x l : existsb (key_eqb x) (distinct l) = existsb (key_eqb x) l.
Proof.
  apply eq_true_iff_eq. rewrite !existsb_exists. split; intros (y & Hy & E); exists y; split; auto.
  - now apply (proj1 (distinct_in _ _)) in Hy.
  - now apply (proj2 (distinct_in _ _)).
Qed.

Lemma distinct_distinct_app l k : distinct (distinct l ++ k) = distinct (l ++ k).
Proof.
  rewrite !distinct_app. rewrite (distinct_id (distinct l)) by apply distinct_nodup. f_equal.
  apply filter_ext. intros x. now rewrite existsb_distinct.
Qed.

(* ---------- groups ---------- *)
Section Groups.
  Variable key : row -> list val.

  Lemma hash_fold rows m :
    NoDup (map fst m) ->
    let m' := fold_left (fun m r => add_to_group (key r) r m) rows m in
    m' = map (fun kg => (fst kg, snd kg ++ filter (fun r => key_eqb (key r) (fst kg)) rows)) m
         ++ map (fun k => (k, filter (fun r => key_eqb (key r) k) rows))
              (filter (fun k => negb (existsb (key_eqb k) (map fst m))) (distinct (map key rows))).
  Proof.
    revert m. induction rows as [|r rows IH]; intros m N; cbn.
    - rewrite app_nil_r. rewrite <- (map_id m) at 1. apply map_ext. intros [k g]; cbn. now rewrite app_nil_r.
    - assert (AG : add_to_group (key r) r m =
                 map (fun kg => (fst kg, snd kg ++ (if key_eqb (key r) (fst kg) then [r] else []))) m
                 ++ (if existsb (key_eqb (key r)) (map fst m) then [] else [(key r, [r])])).
      { clear IH. induction m as [|[k g] m IHm]; cbn; auto.
        inversion N as [|? ? N1 N2]; subst. cbn in N1.
        destruct (key_eqb (key r) k) eqn:K; cbn.
        - rewrite app_nil_r. f_equal. rewrite <- (map_id m) at 1. apply map_ext_in. intros [k' g'] Hin; cbn.
          destruct (key_eqb (key r) k') eqn:K'; [|now rewrite app_nil_r].
          apply key_eqb_true in K. apply key_eqb_true in K'. exfalso. apply N1.
          rewrite <- K, K'. apply (in_map fst) in Hin. exact Hin.
        - rewrite app_nil_r. f_equal. auto. }
      cbn in IH. rewrite IH.
      2:{ rewrite AG, map_app, map_map. cbn.
          destruct (existsb (key_eqb (key r)) (map fst m)) eqn:E.
          - cbn. rewrite app_nil_r. exact N.
          - cbn.
            assert (NN : ~ In (key r) (map fst m)).
            { intros Hin. assert (existsb (key_eqb (key r)) (map fst m) = true); [|congruence].
              apply existsb_exists. exists (key r). split; auto. apply key_eqb_refl. }
            revert N NN. change (map (fun x : list val * list row => fst x) m) with (map fst m).
            generalize (map fst m). intros l N NN. clear - N NN.
            induction l as [|x l IHl]; cbn; [repeat constructor; cbn; tauto|].
            inversion N; subst. constructor; [rewrite in_app_iff; cbn in *; intuition congruence|].
            apply IHl; auto. cbn in NN. tauto. }
      rewrite AG, !map_app, !map_map. cbn [fst snd].
      rewrite <- app_assoc. f_equal.
      + apply map_ext. intros [k g]; cbn. rewrite <- app_assoc. f_equal. f_equal.
        now destruct (key_eqb (key r) k).
      + destruct (existsb (key_eqb (key r)) (map fst m)) eqn:E; cbn [negb map app].
        * rewrite app_nil_r. rewrite filter_filter.
          assert (F : forall k, In k (distinct (map key rows)) ->
             negb (existsb (key_eqb k) (map fst m)) =
             negb (key_eqb (key r) k) && negb (existsb (key_eqb k) (map fst m))).
          { intros k _. destruct (key_eqb (key r) k) eqn:K; cbn; auto.
            apply key_eqb_true in K. subst. now rewrite E. }
          rewrite <- (filter_ext_in _ _ _ F).
          apply map_ext_in. intros k Hk. apply filter_In in Hk. destruct Hk as [_ Hk].
          destruct (key_eqb (key r) k) eqn:K; auto. apply key_eqb_true in K. subst.
          rewrite E in Hk. discriminate.
        * rewrite key_eqb_refl. cbn. f_equal.
          rewrite filter_filter.
          assert (F : forall k, In k (distinct (map key rows)) ->
             negb (existsb (key_eqb k) (map fst m ++ [key r])) =
             negb (key_eqb (key r) k) && negb (existsb (key_eqb k) (map fst m))).
          { intros k _. rewrite existsb_app. cbn. rewrite orb_false_r, negb_orb, andb_comm.
            now rewrite (key_eqb_sym k (key r)). }
          change (map (fun x : list val * list row => fst x) m) with (map fst m).
          rewrite <- (filter_ext_in _ _ _ F).
          apply map_ext_in. intros k Hk. apply filter_In in Hk. destruct Hk as [_ Hk].
          destruct (key_eqb (key r) k) eqn:K; auto. apply key_eqb_true in K. subst.
          rewrite existsb_app in Hk. cbn in Hk. rewrite key_eqb_refl in Hk.
          now rewrite orb_true_r in Hk.
  Qed.

  Lemma hash_groups_ok rows : hash_groups key rows = groups key rows.
  Proof.
    unfold hash_groups, groups. rewrite hash_fold by constructor. cbn.
    rewrite map_map. cbn. f_equal. apply filter_true. auto.
  Qed.

  Lemma groups_nil rows : groups key rows = [] -> rows = [].
  Proof. destruct rows; cbn; auto; discriminate. Qed.

  Lemma in_groups g rows : In g (groups key rows) ->
    exists k, In k (map key rows) /\ g = filter (fun r => key_eqb (key r) k) rows.
  Proof.
    unfold groups. intros E. apply in_map_iff in E. destruct E as (k & <- & E).
    exists k. split; auto. now apply distinct_in.
  Qed.

  (* A condition that only depends on the key takes whole groups away. *)
  Lemma groups_filter (q : row -> bool) (qg : list row -> bool) rows :
    (forall r r', key r = key r' -> q r = q r') ->
    (forall g r, In g (groups key rows) -> In r g -> qg g = q r) ->
    groups key (filter q rows) = filter qg (groups key rows).
  Proof.
    intros Q G.
    pose (qk := fun k => existsb (fun r => key_eqb (key r) k && q r) rows).
    assert (QK : forall r, In r rows -> q r = qk (key r)).
    { intros r Hr. unfold qk. apply eq_true_iff_eq. rewrite existsb_exists. split.
      - intros E. exists r. now rewrite key_eqb_refl, E.
      - intros (r' & _ & E). apply andb_true_iff in E. destruct E as [E1 E2].
        apply key_eqb_true in E1. now rewrite (Q r r'). }
    unfold groups.
    replace (map key (filter q rows)) with (filter qk (map key rows)).
    2:{ rewrite filter_map. f_equal. apply filter_ext_in. intros r Hr. symmetry. auto. }
    rewrite distinct_filter, filter_map.
    rewrite (filter_ext_in qk (fun k => qg (filter (fun r => key_eqb (key r) k) rows))).
    - apply map_ext_in. intros k Hk. rewrite filter_filter.
      apply filter_ext_in. intros r Hr.
      destruct (key_eqb (key r) k) eqn:K; [|apply andb_false_r]. rewrite andb_true_r.
      apply filter_In in Hk. destruct Hk as [Hk Hq].
      rewrite <- (G (filter (fun r => key_eqb (key r) k) rows) r); auto.
      + unfold groups. apply in_map_iff. eauto.
      + apply filter_In. auto.
    - intros k Hk. pose proof Hk as Hk'. apply (proj1 (distinct_in _ _)) in Hk'. apply in_map_iff in Hk'.
      destruct Hk' as (r & Hr1 & Hr2).
      rewrite (G (filter (fun r => key_eqb (key r) k) rows) r).
      + rewrite QK by auto. now rewrite Hr1.
      + unfold groups. apply in_map_iff. exists k. split; auto.
      + apply filter_In. split; auto. now apply key_eqb_true.
  Qed.
End Groups.

Lemma groups_key_ext key key' rows :
  (forall r, In r rows -> key r = key' r) -> groups key rows = groups key' rows.
Proof.
  intros E. unfold groups. rewrite (map_ext_in _ _ _ E). apply map_ext. intros k.
  apply filter_ext_in. intros r Hr. now rewrite E.
Qed.

(* ---------- sorting ---------- *)
Lemma val_le_total a b : val_le a b = true \/ val_le b a = true.
Proof. destruct a, b; cbn; auto. rewrite !Z.leb_le. lia. Qed.
Lemma val_le_trans a b c : val_le a b = true -> val_le b c = true -> val_le a c = true.
Proof. destruct a, b, c; cbn; auto; try discriminate. rewrite !Z.leb_le. lia. Qed.

Lemma keys_le_total a b : map snd a = map snd b -> keys_le a b = true \/ keys_le b a = true.
Proof.
  revert b. induction a as [|[x s] a IH]; intros [|[y s'] b]; cbn; auto.
  intros E. injection E as <- E. specialize (IH b E).
  destruct s; destruct (val_le_total x y) as [V|V]; rewrite V; cbn;
    rewrite ?andb_true_r; destruct (val_le x y), (val_le y x); cbn; auto; discriminate.
Qed.

Lemma keys_le_trans a b c : map snd a = map snd b -> map snd b = map snd c ->
  keys_le a b = true -> keys_le b c = true -> keys_le a c = true.
Proof.
  revert b c. induction a as [|[x s] a IH]; intros [|[y s'] b] [|[z s''] c]; cbn; auto; try discriminate.
  intros E1 E2. injection E1 as <- E1. injection E2 as <- E2. specialize (IH b c E1 E2).
  pose proof (val_le_trans x y z) as T1. pose proof (val_le_trans z y x) as T2.
  pose proof (val_le_trans y z x) as T3. pose proof (val_le_trans y x z) as T4.
  pose proof (val_le_trans z x y) as T5. pose proof (val_le_trans x z y) as T6.
  destruct s; destruct (val_le x y), (val_le y x), (val_le y z), (val_le z y), (val_le x z), (val_le z x);
    cbn; auto; intros; try discriminate; exfalso;
    first [specialize (T1 eq_refl eq_refl); discriminate | specialize (T2 eq_refl eq_refl); discriminate
          |specialize (T3 eq_refl eq_refl); discriminate | specialize (T4 eq_refl eq_refl); discriminate
          |specialize (T5 eq_refl eq_refl); discriminate | specialize (T6 eq_refl eq_refl); discriminate].
Qed.

Section Sort.
  Context {A : Type} (le : A -> A -> bool).
  Hypothesis total : forall a b, le a b = true \/ le b a = true.
  Hypothesis trans : forall a b c, le a b = true -> le b c = true -> le a c = true.

  Fixpoint sorted (l : list A) : Prop :=
    match l with [] => True | x :: r => (forall y, In y r -> le x y = true) /\ sorted r end.

  Lemma insert_in x l y : In y (insert le x l) <-> y = x \/ In y l.
  Proof. induction l as [|z l IH]; cbn; [intuition|]. destruct (le x z); cbn; rewrite ?IH; intuition. Qed.

  Lemma insert_sorted x l : sorted l -> sorted (insert le x l).
  Proof.
    induction l as [|z l IH]; cbn; [intuition|]. intros [H1 H2]. destruct (le x z) eqn:E; cbn.
    - repeat split; auto. intros y [<-|Hy]; auto. eapply trans; eauto.
    - split; auto. intros y Hy. apply insert_in in Hy. destruct Hy as [->|Hy]; auto.
      destruct (total x z); congruence.
  Qed.

  Lemma sort_sorted l : sorted (sort le l).
  Proof. induction l; cbn; auto. now apply insert_sorted. Qed.

  Lemma sort_in l y : In y (sort le l) <-> In y l.
  Proof. induction l as [|x l IH]; cbn; [tauto|]. rewrite insert_in, IH. intuition. Qed.

  Lemma insert_hd x l : (forall y, In y l -> le x y = true) -> insert le x l = x :: l.
  Proof. destruct l; cbn; auto. intros E. now rewrite E by auto. Qed.

  Lemma filter_insert p x l : sorted l ->
    filter p (insert le x l) = if p x then insert le x (filter p l) else filter p l.
  Proof.
    induction l as [|z l IH]; cbn; intros SO.
    - destruct (p x); reflexivity.
    - destruct SO as [S1 S2]. destruct (le x z) eqn:E; cbn.
      + destruct (p x) eqn:Px; auto. symmetry. destruct (p z) eqn:Pz.
        * rewrite insert_hd; auto. intros y [<-|Hy]; auto. apply filter_In in Hy. eapply trans; eauto. now apply S1.
        * rewrite insert_hd; auto. intros y Hy. apply filter_In in Hy. eapply trans; eauto. now apply S1.
      + rewrite IH by auto. destruct (p z) eqn:Pz, (p x) eqn:Px; cbn; rewrite ?E; auto.
  Qed.

  Lemma filter_sort p l : filter p (sort le l) = sort le (filter p l).
  Proof.
    induction l as [|x l IH]; auto.
    change (sort le (x :: l)) with (insert le x (sort le l)). rewrite filter_insert by apply sort_sorted.
    rewrite IH. cbn [filter]. now destruct (p x).
  Qed.
End Sort.

Lemma sort_map {A B} (f : A -> B) (le : B -> B -> bool) l :
  sort le (map f l) = map f (sort (fun a b => le (f a) (f b)) l).
Proof.
  induction l as [|x l IH]; auto.
  change (insert le (f x) (sort le (map f l)) =
          map f (insert (fun a b => le (f a) (f b)) x (sort (fun a b => le (f a) (f b)) l))).
  rewrite IH. generalize (sort (fun a b => le (f a) (f b)) l). intros k.
  induction k as [|y k IHk]; cbn; auto. destruct (le (f x) (f y)); cbn; congruence.
Qed.

Lemma sort_ext {A} (le le' : A -> A -> bool) l :
  (forall a b, In a l -> In b l -> le a b = le' a b) -> sort le l = sort le' l.
Proof.
  induction l as [|x l IH]; intros E; auto.
  change (insert le x (sort le l) = insert le' x (sort le' l)).
  rewrite IH by (intros; apply E; cbn; auto).
  assert (IN : forall y, In y (sort le' l) -> In y l).
  { clear. induction l as [|z l IH]; cbn; [tauto|]. intros y.
    rewrite insert_in. intuition. }
  revert IN. generalize (sort le' l). intros k. induction k as [|y k IHk]; cbn; intros IN; auto.
  rewrite E by (cbn; auto). destruct (le' x y); auto. f_equal. apply IHk. auto.
Qed.

Lemma filter_sort_rows p ord l : filter p (sort_rows ord l) = sort_rows ord (filter p l).
Proof.
  apply filter_sort.
  - intros a b. apply keys_le_total. unfold order_row. now rewrite !map_map.
  - intros a b c. apply keys_le_trans; unfold order_row; now rewrite !map_map.
Qed.

Lemma cut_map {A B} (f : A -> B) lim l : cut lim (map f l) = map f (cut lim l).
Proof. destruct lim as [[o c]|]; cbn; auto. now rewrite skipn_map, firstn_map. Qed.
