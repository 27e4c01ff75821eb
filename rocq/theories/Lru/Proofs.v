From Verif.Lru Require Import Model Spec.
From Coq Require Import Permutation.
Local Open Scope Z_scope.

(* the cache as a list of (address, (key, value)), oldest first; X: node in the map but
   not in the list (during add) *)
Definition trip := (nat * (Z * Z))%type.
Definition tk (p : trip) : Z := fst (snd p).
Definition tv (p : trip) : Z := snd (snd p).
Definition ka (p : trip) : Z * nat := (tk p, fst p).
Record W (h : nat -> option node) (l : list nat) (m : list (Z * nat)) (P : list trip) (X : list (Z * nat)) : Prop := {
  w_lst : l = map fst P;
  w_addr : NoDup (map fst P ++ map snd X);
  w_keys : NoDup (map tk P ++ map fst X);
  w_heap : forall p, In p P -> h (fst p) = Some (mk_node (tv p) (tk p));
  w_pend : forall x, In x X -> h (snd x) <> None;
  w_supp : forall a, h a <> None -> In a (map fst P ++ map snd X);
  w_map : Permutation m (map ka P ++ X)
}.

Lemma mfind_in m k a : NoDup (map fst m) -> mfind k m = Some a <-> In (k, a) m.
Proof.
  unfold mfind. induction m as [|[k' a'] m IH]; cbn; intros N; [split; [discriminate|tauto]|].
  inversion N; subst. destruct (Z.eqb_spec k' k) as [->|D].
  - cbn. split; [intros E; inversion E; auto|]. intros [E|I]; [congruence|]. exfalso. apply H1. apply (in_map fst) in I. exact I.
  - rewrite IH by auto. split; auto. intros [E|I]; [congruence|auto].
Qed.
Lemma mfind_none m k : mfind k m = None <-> ~ In k (map fst m).
Proof.
  unfold mfind. induction m as [|[k' a'] m IH]; cbn; [tauto|]. destruct (Z.eqb_spec k' k) as [->|D]; cbn.
  - split; [discriminate|]. intros H. exfalso. auto.
  - rewrite IH. tauto.
Qed.
Lemma map_ka P : map fst (map ka P) = map tk P.
Proof. rewrite map_map. reflexivity. Qed.
Lemma map_ka2 P : map snd (map ka P) = map fst P.
Proof. rewrite map_map. reflexivity. Qed.
Lemma W_mapkeys h l m P X : W h l m P X -> NoDup (map fst m).
Proof.
  intros w. eapply Permutation_NoDup; [apply Permutation_map, Permutation_sym, w|]. rewrite map_app, map_ka. apply w.
Qed.
Lemma W_mfind h l m P k a : W h l m P [] -> mfind k m = Some a <-> exists v, In (a, (k, v)) P.
Proof.
  intros w. rewrite mfind_in by (eapply W_mapkeys; eauto).
  assert (Q : In (k, a) m <-> In (k, a) (map ka P)).
  { pose proof (w_map _ _ _ _ _ w) as PM. rewrite app_nil_r in PM. split; apply Permutation_in; auto. apply Permutation_sym. auto. }
  rewrite Q, in_map_iff. split.
  - intros ([a' [k' v']] & E & I). unfold ka, tk in E. cbn in E. inversion E; subst. eauto.
  - intros (v & I). exists (a, (k, v)). auto.
Qed.
Lemma W_mnone h l m P k : W h l m P [] -> mfind k m = None <-> ~ In k (map tk P).
Proof.
  intros w. rewrite mfind_none. 
  assert (Q : In k (map fst m) <-> In k (map tk P)); [|tauto].
  rewrite <- map_ka. pose proof (w_map _ _ _ _ _ w) as PM. rewrite app_nil_r in PM.
  split; apply Permutation_in; apply Permutation_map; auto. apply Permutation_sym; auto.
Qed.
Lemma unlink_notin a l : ~ In a l -> unlink a l = l.
Proof.
  induction l as [|x l IH]; cbn; auto. intros H. destruct (Nat.eqb_spec x a) as [->|]; [tauto|]. cbn. f_equal. apply IH. tauto.
Qed.
Lemma unlink_mid a l1 l2 : NoDup (l1 ++ a :: l2) -> unlink a (l1 ++ a :: l2) = l1 ++ l2.
Proof.
  intros N. apply NoDup_remove_2 in N. rewrite in_app_iff in N. unfold unlink. rewrite filter_app. cbn. rewrite Nat.eqb_refl. cbn.
  change (filter _ l1) with (unlink a l1). change (filter _ l2) with (unlink a l2). rewrite !unlink_notin by tauto. auto.
Qed.
Lemma merase_mid k a m1 m2 : NoDup (map fst (m1 ++ (k, a) :: m2)) -> merase k (m1 ++ (k, a) :: m2) = m1 ++ m2.
Proof.
  rewrite map_app. cbn. intros N. apply NoDup_remove_2 in N. rewrite in_app_iff in N.
  assert (G : forall m, ~ In k (map fst m) -> merase k m = m).
  { clear. induction m as [|[k' a] m IH]; cbn; auto. intros H. destruct (Z.eqb_spec k' k) as [->|]; [tauto|]. cbn. f_equal. apply IH. tauto. }
  unfold merase. rewrite filter_app. cbn. rewrite Z.eqb_refl. cbn. change (filter _ m1) with (merase k m1). change (filter _ m2) with (merase k m2).
  rewrite !G by tauto. auto.
Qed.
Lemma merase_perm k m m' : Permutation m m' -> Permutation (merase k m) (merase k m').
Proof.
  unfold merase. induction 1; cbn; auto.
  - destruct (negb _); auto.
  - destruct (negb (fst y =? k)), (negb (fst x =? k)); auto. constructor.
  - eapply Permutation_trans; eauto.
Qed.
Lemma hset_other h a o x : x <> a -> hset h a o x = h x.
Proof. intros H. unfold hset. destruct (Nat.eqb_spec x a); congruence. Qed.
Lemma hset_same h a o : hset h a o a = o.
Proof. unfold hset. rewrite Nat.eqb_refl. auto. Qed.

(* removing the entry of one listed node: erase, unlink, free *)
Lemma W_remove h m P1 p P2 X : W h (map fst (P1 ++ p :: P2)) m (P1 ++ p :: P2) X ->
  W (hset h (fst p) None) (map fst (P1 ++ P2)) (merase (tk p) m) (P1 ++ P2) X.
Proof.
  intros [A B C D E F G].
  assert (NA : ~ In (fst p) (map fst (P1 ++ P2) ++ map snd X)).
  { rewrite map_app in *. cbn in B. rewrite <- !app_assoc in *. cbn in B. apply NoDup_remove_2 in B. auto. }
  constructor; auto.
  - rewrite map_app in *. cbn in B. rewrite <- !app_assoc in *. cbn in B. apply NoDup_remove_1 in B. auto.
  - rewrite map_app in *. cbn in C. rewrite <- !app_assoc in *. cbn in C. apply NoDup_remove_1 in C. auto.
  - intros q I. rewrite hset_other.
    + apply D. rewrite in_app_iff in *. cbn. tauto.
    + intros EQ. apply NA. apply in_or_app. left. rewrite <- EQ. apply in_map. auto.
  - intros x I. rewrite hset_other; auto. intros EQ. apply NA. apply in_or_app. right. rewrite <- EQ. apply in_map. auto.
  - intros a H. destruct (Nat.eq_dec a (fst p)) as [->|N]; [rewrite hset_same in H; congruence|]. rewrite hset_other in H by auto.
    specialize (F a H). rewrite map_app in *. cbn in F. rewrite !in_app_iff in *. cbn in F. intuition congruence.
  - eapply Permutation_trans; [apply merase_perm; exact G|]. rewrite map_app. cbn [map]. unfold ka at 2.
    rewrite <- app_assoc. cbn [app]. rewrite merase_mid.
    + rewrite map_app, <- app_assoc. auto.
    + rewrite !map_app in *. cbn [map] in *. rewrite !map_app. rewrite map_ka in *. rewrite <- app_assoc in C. cbn in C. rewrite map_ka. exact C.
Qed.
Lemma split_in {A} (p : A) P : In p P -> exists P1 P2, P = P1 ++ p :: P2.
Proof. apply in_split. Qed.

(* the eviction loop drops the d oldest entries *)
Lemma evict_ok t X : (length X = 1)%nat -> forall P fuel h m, (length P <= fuel)%nat -> W h (map fst P) m P X ->
  exists d h2 m2, evict fuel h (map fst P) m t = Some (h2, map fst (skipn d P), m2) /\ W h2 (map fst (skipn d P)) m2 (skipn d P) X /\
    (d <= length P)%nat /\ (forall j, (j < d)%nat -> t <= Z.of_nat (length P) - Z.of_nat j + 1) /\
    (d = length P \/ Z.of_nat (length P) - Z.of_nat d + 1 < t) /\ (forall x, In x X -> h2 (snd x) = h (snd x)).
Proof.
  intros LX. induction P as [|p P IH]; intros fuel h m LF w.
  - exists 0%nat, h, m. split; [destruct fuel; reflexivity|]. split; [exact w|]. split; [cbn; lia|]. split; [intros; lia|]. auto.
  - destruct fuel as [|fuel]; [cbn in LF; lia|]. cbn [length] in LF. cbn [map evict].
    assert (LM : length m = (S (length P) + 1)%nat).
    { rewrite (Permutation_length (w_map _ _ _ _ _ w)). rewrite app_length, map_length, LX. reflexivity. }
    rewrite LM. destruct (Z.leb_spec t (Z.of_nat (S (length P) + 1))) as [GE|LT].
    + rewrite (w_heap _ _ _ _ _ w p (or_introl eq_refl)). cbn [n_key].
      pose proof (W_remove h m [] p P X w) as w'. cbn [app] in w'.
      destruct (IH fuel _ _ ltac:(lia) w') as (d & h2 & m2 & E1 & E2 & E3 & E4 & E5 & E6).
      exists (S d), h2, m2. cbn [skipn length]. split; [auto|]. split; [auto|]. split; [lia|]. split; [|split].
      * intros [|j] Hj; [lia|]. specialize (E4 j ltac:(lia)). lia.
      * destruct E5; [left; lia|right; lia].
      * intros x I. rewrite E6 by auto. apply hset_other. intros EQ. pose proof (w_addr _ _ _ _ _ w) as N. cbn in N. inversion N; subst.
        apply H1. apply in_or_app. right. rewrite <- EQ. apply in_map. auto.
    + exists 0%nat, h, m. cbn [skipn]. split; [auto|]. split; [auto|]. split; [lia|]. split; [intros; lia|]. split; [right; cbn [length]; lia|auto].
Qed.

(* abstract caches: (key, value), oldest first *)
Definition kvs (P : list trip) : list (Z * Z) := map snd P.
Definition without (k : Z) (L : list (Z * Z)) : list (Z * Z) := filter (fun e => negb (fst e =? k)) L.
Definition lookup (k : Z) (L : list (Z * Z)) : option Z := option_map snd (find (fun e => fst e =? k) L).
Definition a_step (t : Z) (L : list (Z * Z)) (o : op) : list (Z * Z) * option Z :=
  match o with
  | Add k v => let L1 := without k L in (skipn (length L1 - Z.to_nat (t - 2)) L1 ++ [(k, v)], None)
  | Find k => match lookup k L with Some v => (without k L ++ [(k, v)], Some v) | None => (L, None) end
  | Del k => (without k L, None)
  | Clear => ([], None)
  end.
Definition R (c : cache) (P : list trip) : Prop := W (heap c) (lst c) (mp c) P [] /\ (forall a, In a (map fst P) -> (a < next c)%nat).

Lemma without_mid k v L1 L2 : NoDup (map fst (L1 ++ (k, v) :: L2)) -> without k (L1 ++ (k, v) :: L2) = L1 ++ L2.
Proof.
  rewrite map_app. cbn. intros N. apply NoDup_remove_2 in N. rewrite in_app_iff in N.
  assert (G : forall m, ~ In k (map fst m) -> without k m = m).
  { clear. induction m as [|[k' a] m IH]; cbn; auto. intros H. destruct (Z.eqb_spec k' k) as [->|]; [tauto|]. cbn. f_equal. apply IH. tauto. }
  unfold without. rewrite filter_app. cbn. rewrite Z.eqb_refl. cbn. change (filter _ L1) with (without k L1). change (filter _ L2) with (without k L2).
  rewrite !G by tauto. auto.
Qed.
Lemma without_notin k L : ~ In k (map fst L) -> without k L = L.
Proof. induction L as [|[k' a] m IH]; cbn; auto. intros H. destruct (Z.eqb_spec k' k) as [->|]; [tauto|]. cbn. f_equal. apply IH. tauto. Qed.
Lemma lookup_in k v L : NoDup (map fst L) -> lookup k L = Some v <-> In (k, v) L.
Proof.
  unfold lookup. induction L as [|[k' a'] m IH]; cbn; intros N; [split; [discriminate|tauto]|].
  inversion N; subst. destruct (Z.eqb_spec k' k) as [->|D].
  - cbn. split; [intros E; inversion E; auto|]. intros [E|I]; [congruence|]. exfalso. apply H1. apply (in_map fst) in I. exact I.
  - rewrite IH by auto. split; auto. intros [E|I]; [congruence|auto].
Qed.
Lemma lookup_none k L : lookup k L = None <-> ~ In k (map fst L).
Proof.
  unfold lookup. induction L as [|[k' a'] m IH]; cbn; [tauto|]. destruct (Z.eqb_spec k' k) as [->|D]; cbn.
  - split; [discriminate|]. intros H. exfalso. auto.
  - rewrite IH. tauto.
Qed.
Lemma kvs_keys P : map fst (kvs P) = map tk P.
Proof. unfold kvs. rewrite map_map. reflexivity. Qed.
Lemma R_keys c P : R c P -> NoDup (map fst (kvs P)).
Proof. intros [w _]. rewrite kvs_keys. pose proof (w_keys _ _ _ _ _ w) as N. cbn in N. rewrite app_nil_r in N. auto. Qed.

Lemma W_append h l m P k v a o : W h l m P [(k, a)] -> h a = Some o -> W (hset h a (Some (mk_node v k))) (l ++ [a]) m (P ++ [(a, (k, v))]) [].
Proof.
  intros [A B C D E F G] HA. constructor.
  - rewrite map_app, A. reflexivity.
  - rewrite map_app. cbn. rewrite app_nil_r. exact B.
  - rewrite map_app. cbn. rewrite app_nil_r. exact C.
  - intros p I. apply in_app_or in I. destruct I as [I|[<-|[]]].
    + rewrite hset_other; auto. intros EQ. cbn in B. apply NoDup_remove_2 in B. rewrite app_nil_r in B. apply B. rewrite <- EQ. apply in_map. auto.
    + cbn. apply hset_same.
  - intros x [].
  - intros x H. destruct (Nat.eq_dec x a) as [->|N].
    + rewrite map_app. cbn. rewrite !in_app_iff. cbn. auto.
    + rewrite hset_other in H by auto. specialize (F x H). rewrite map_app. cbn in *. rewrite !in_app_iff in *. cbn in *. tauto.
  - rewrite map_app. cbn. rewrite app_nil_r. exact G.
Qed.
Lemma skip_len (A : Type) (L : list A) d t : (d <= length L)%nat -> (forall j, (j < d)%nat -> t <= Z.of_nat (length L) - Z.of_nat j + 1) ->
  (d = length L \/ Z.of_nat (length L) - Z.of_nat d + 1 < t) -> d = (length L - Z.to_nat (t - 2))%nat.
Proof.
  intros D1 D2 D3. destruct d as [|d]; [lia|]. specialize (D2 d ltac:(lia)). lia.
Qed.

Lemma mid_perm {A} (P1 P2 : list A) p : Permutation (P1 ++ p :: P2) ((P1 ++ P2) ++ [p]).
Proof. rewrite <- app_assoc. apply Permutation_app_head. change (p :: P2) with ([p] ++ P2). apply Permutation_app_comm. Qed.
Lemma W_unlink h l m P1 p P2 : W h l m (P1 ++ p :: P2) [] -> W h (map fst (P1 ++ P2)) m (P1 ++ P2) [ka p].
Proof.
  intros [A B C D E F G]. pose proof (mid_perm P1 P2 p) as PR.
  cbn [map] in *. rewrite app_nil_r in *. constructor; auto.
  - eapply Permutation_NoDup in B; [|apply Permutation_map; exact PR]. rewrite map_app in B. exact B.
  - eapply Permutation_NoDup in C; [|apply Permutation_map; exact PR]. rewrite map_app in C. exact C.
  - intros q I. apply D. eapply Permutation_in; [apply Permutation_sym; exact PR|]. apply in_or_app. auto.
  - intros x [<-|[]]. cbn. rewrite D; [discriminate|]. apply in_or_app. right. left. auto.
  - intros a HA. specialize (F a HA). rewrite ?app_nil_r in F. eapply Permutation_in in F; [|apply Permutation_map; exact PR]. rewrite map_app in F. exact F.
  - eapply Permutation_trans; [exact G|]. eapply Permutation_trans; [apply Permutation_map; exact PR|]. rewrite map_app. auto.
Qed.

Lemma step_ok c P o : R c P -> exists c' P', step c o = Some (c', snd (a_step (thr c) (kvs P) o)) /\ R c' P' /\
  kvs P' = fst (a_step (thr c) (kvs P) o) /\ thr c' = thr c.
Proof.
  intros RP. pose proof RP as [w NX]. pose proof (R_keys _ _ RP) as NK. pose proof (w_lst _ _ _ _ _ w) as EL.
  assert (FND : forall k a, mfind k (mp c) = Some a -> exists v P1 P2, P = P1 ++ (a, (k, v)) :: P2 /\ lookup k (kvs P) = Some v /\
     unlink a (lst c) = map fst (P1 ++ P2) /\ without k (kvs P) = kvs (P1 ++ P2) /\ heap c a = Some (mk_node v k)).
  { intros k a H. apply (W_mfind _ _ _ _ k a w) in H. destruct H as [v I]. destruct (split_in _ _ I) as (P1 & P2 & ->).
    exists v, P1, P2. split; auto. split; [apply lookup_in; auto; apply (in_map snd) in I; exact I|]. split; [|split].
    - rewrite EL, map_app. cbn. rewrite unlink_mid; [rewrite map_app; auto|]. pose proof (w_addr _ _ _ _ _ w) as N. rewrite map_app in N. cbn in N. rewrite app_nil_r in N. auto.
    - unfold kvs in *. rewrite map_app in *. cbn in *. rewrite without_mid; auto. rewrite map_app. auto.
    - apply (w_heap _ _ _ _ _ w _ I). }
  assert (NON : forall k, mfind k (mp c) = None -> ~ In k (map fst (kvs P))).
  { intros k H. rewrite kvs_keys. apply (W_mnone _ _ _ _ k w) in H. auto. }
  destruct o as [k v|k|k|]; cbn [step a_step].
  - (* add *) unfold cadd. destruct (mfind k (mp c)) as [a|] eqn:EM.
    + destruct (FND _ _ EM) as (v0 & P1 & P2 & EP & LK & UL & WO & HA).
      assert (w1 : W (heap c) (map fst (P1 ++ P2)) (mp c) (P1 ++ P2) [(k, a)]).
      { rewrite EP, EL, EP in w. apply (W_unlink _ _ _ _ _ _ w). }
      rewrite UL. destruct (evict_ok (thr c) [(k, a)] eq_refl (P1 ++ P2) (length (map fst (P1 ++ P2))) _ _ ltac:(rewrite map_length; apply le_n) w1) as (d & h2 & m2 & E1 & E2 & E3 & E4 & E5 & E6).
      assert (HA2 : h2 a = Some (mk_node v0 k)) by (rewrite <- HA; apply (E6 (k, a)); left; auto). rewrite E1, HA2. cbn [option_map].
      eexists _, (skipn d (P1 ++ P2) ++ [(a, (k, v))]). split; [reflexivity|]. split; [|split; [|reflexivity]].
      * split; cbn [heap lst mp next].
        { eapply W_append; [exact E2|exact HA2]. }
        { intros x I. apply NX. rewrite map_app in I. apply in_app_or in I. subst P. rewrite map_app. cbn. rewrite in_app_iff. cbn. destruct I as [I|[<-|[]]]; auto.
          rewrite <- skipn_map in I. assert (I' : In x (map fst (P1 ++ P2))) by (rewrite <- (firstn_skipn d (map fst (P1 ++ P2))); apply in_or_app; auto).
          rewrite map_app, in_app_iff in I'. tauto. }
      * cbn [fst]. rewrite WO. unfold kvs at 1. rewrite map_app. cbn [map snd]. f_equal. rewrite <- skipn_map. unfold kvs.
        rewrite map_length. f_equal. apply skip_len; auto.
    + pose proof (NON _ EM) as NI. rewrite without_notin by auto.
      assert (w1 : W (hset (heap c) (next c) (Some (mk_node 0 0))) (map fst P) (mp c ++ [(k, next c)]) P [(k, next c)]).
      { assert (NF : ~ In (next c) (map fst P)) by (intros I; apply NX in I; lia).
        destruct w as [A B C D E F G]. cbn in *. rewrite app_nil_r in *. constructor; auto; cbn.
        - eapply Permutation_NoDup; [apply Permutation_cons_append|]. constructor; auto.
        - eapply Permutation_NoDup; [apply Permutation_cons_append|]. constructor; auto. rewrite kvs_keys in NI. auto.
        - intros p I. rewrite hset_other; auto. intros EQ. apply NF. rewrite <- EQ. apply in_map. auto.
        - intros x [<-|[]]. cbn. rewrite hset_same. discriminate.
        - intros x H. rewrite in_app_iff. cbn. destruct (Nat.eq_dec x (next c)) as [->|N]; auto. rewrite hset_other in H by auto. left. apply F. auto.
        - apply Permutation_app_tail. auto. }
      rewrite EL. destruct (evict_ok (thr c) [(k, next c)] eq_refl P (length (map fst P)) _ _ ltac:(rewrite map_length; apply le_n) w1) as (d & h2 & m2 & E1 & E2 & E3 & E4 & E5 & E6).
      rewrite E1. assert (HA : h2 (next c) = Some (mk_node 0 0)) by (rewrite <- (hset_same (heap c) (next c) (Some (mk_node 0 0))); apply (E6 (k, next c)); left; auto). rewrite HA. cbn [option_map].
      eexists _, (skipn d P ++ [(next c, (k, v))]). split; [reflexivity|]. split; [|split; [|reflexivity]].
      * split; cbn [heap lst mp next].
        { eapply W_append; eauto. }
        { intros x I. rewrite map_app in I. apply in_app_or in I. destruct I as [I|[<-|[]]]; [|cbn; lia].
          rewrite <- skipn_map in I. assert (I' : In x (map fst P)) by (rewrite <- (firstn_skipn d (map fst P)); apply in_or_app; auto).
          apply NX in I'. lia. }
      * cbn [fst]. unfold kvs at 1. rewrite map_app. cbn [map snd]. f_equal. rewrite <- skipn_map. unfold kvs.
        rewrite map_length. f_equal. apply skip_len; auto.
  - (* find *) unfold cfind. destruct (mfind k (mp c)) as [a|] eqn:EM.
    + destruct (FND _ _ EM) as (v0 & P1 & P2 & EP & LK & UL & WO & HA). rewrite HA, LK. cbn [n_value snd fst].
      eexists _, ((P1 ++ P2) ++ [(a, (k, v0))]). split; [reflexivity|]. split; [|split; [|reflexivity]].
      * split; cbn [heap lst mp next].
        { destruct w as [A B C D E F G]. subst P.
          assert (PR : Permutation (P1 ++ (a, (k, v0)) :: P2) ((P1 ++ P2) ++ [(a, (k, v0))])).
          { rewrite <- app_assoc. apply Permutation_app_head. change (?x :: P2) with ([x] ++ P2). apply Permutation_app_comm. }
          constructor; cbn in *; rewrite ?app_nil_r in *; auto.
          - rewrite UL. rewrite !map_app. reflexivity.
          - eapply Permutation_NoDup; [apply Permutation_map; exact PR|]. auto.
          - eapply Permutation_NoDup; [apply Permutation_map; exact PR|]. auto.
          - intros p I. apply D. eapply Permutation_in; [apply Permutation_sym; exact PR|]. auto.
          - intros x H. specialize (F x H). rewrite ?app_nil_r in F. eapply Permutation_in; [apply Permutation_map; exact PR|]. auto.
          - eapply Permutation_trans; [exact G|]. apply Permutation_map. auto. }
        { intros x I. apply NX. subst P. rewrite !map_app, !in_app_iff in *. cbn in *. tauto. }
      * rewrite WO. unfold kvs. rewrite map_app. reflexivity.
    + rewrite (proj2 (lookup_none _ _) (NON _ EM)). exists c, P. auto.
  - (* del *) unfold cdel. destruct (mfind k (mp c)) as [a|] eqn:EM.
    + destruct (FND _ _ EM) as (v0 & P1 & P2 & EP & LK & UL & WO & HA). rewrite HA. cbn [option_map n_key].
      eexists _, (P1 ++ P2). split; [reflexivity|]. split; [|split; [|reflexivity]].
      * split; cbn [heap lst mp next].
        { rewrite UL. subst P. rewrite EL in w. pose proof (W_remove _ _ _ _ _ _ w) as w'. exact w'. }
        { intros x I. apply NX. subst P. rewrite !map_app, !in_app_iff in *. cbn in *. tauto. }
      * cbn [fst]. auto.
    + exists c, P. cbn [option_map fst snd]. rewrite without_notin by auto. auto.
  - (* clear *) unfold cclear.
    assert (FA : forall m P h, W h (map fst P) m P [] -> free_all h (map fst P) m = Some (match m with [] => h | _ => fun _ => None end, []) \/
      exists h', free_all h (map fst P) m = Some (h', []) /\ forall a, h' a = None).
    { clear. induction m as [|[k a] m IH]; intros P h w.
      - left. cbn. pose proof (Permutation_nil (w_map _ _ _ _ _ w)) as E. rewrite app_nil_r in E. apply map_eq_nil in E. subst. reflexivity.
      - right. cbn [free_all]. assert (I : In (k, a) (map ka P)).
        { pose proof (w_map _ _ _ _ _ w) as PM. rewrite app_nil_r in PM. eapply Permutation_in; [exact PM|]. left. auto. }
        apply in_map_iff in I. destruct I as (p & E & I). unfold ka in E. inversion E; subst. rewrite (w_heap _ _ _ _ _ w p I).
        destruct (split_in _ _ I) as (P1 & P2 & ->). pose proof (W_remove _ _ _ _ _ _ w) as w'.
        assert (UL : unlink (fst p) (map fst (P1 ++ p :: P2)) = map fst (P1 ++ P2)).
        { rewrite !map_app. cbn. apply unlink_mid. pose proof (w_addr _ _ _ _ _ w) as N. rewrite map_app in N. cbn in N. rewrite app_nil_r in N. auto. }
        rewrite UL. assert (ME : merase (tk p) ((tk p, fst p) :: m) = m).
        { apply (merase_mid (tk p) (fst p) [] m). exact (W_mapkeys _ _ _ _ _ w). }
        rewrite ME in w'. destruct (IH _ _ w') as [H|(h' & H1 & H2)]; [|eauto].
        destruct m as [|x m]; [|eexists; split; [exact H|auto]]. eexists. split; [exact H|]. intros b.
        destruct (hset h (fst p) None b) eqn:EB; auto. exfalso.
        assert (IB : In b (map fst (P1 ++ P2) ++ map snd [])) by (apply (w_supp _ _ _ _ _ w'); congruence).
        pose proof (Permutation_nil (w_map _ _ _ _ _ w')) as E0. rewrite app_nil_r in E0. apply map_eq_nil in E0. change (@app trip P1 P2) with (@app (nat * (Z * Z)) P1 P2) in IB. apply app_eq_nil in E0. destruct E0; subst. destruct IB. }
    rewrite EL in w. destruct (FA _ _ _ w) as [H|(h' & H & HN)]; rewrite EL, H.
    + eexists _, []. split; [reflexivity|]. split; [|split; reflexivity]. split; cbn [heap lst mp next]; [|intros a []].
      constructor; cbn; auto; try constructor; try tauto. intros a HA. destruct (mp c) eqn:EMP; [|congruence].
      pose proof (Permutation_nil (w_map _ _ _ _ _ w)) as E0. rewrite app_nil_r in E0. apply map_eq_nil in E0. subst P. apply (w_supp _ _ _ _ _ w a HA).
    + eexists _, []. split; [reflexivity|]. split; [|split; reflexivity]. split; cbn [heap lst mp next]; [|intros a []].
      constructor; cbn; auto; try constructor; try tauto.
Qed.

(* ---- the abstract cache against the history ---- *)
Definition cap (t : Z) : nat := Z.to_nat (capacity t).
Record H (t : Z) (L : list (Z * Z)) (h : list (op * option Z)) : Prop := {
  h_keys : NoDup (map fst L);
  h_len : (length L <= cap t)%nat;
  h_val : forall k v, In (k, v) L -> last_value h k = Some v;
  h_after : forall a k v b, L = a ++ (k, v) :: b -> incl (map fst b) (used_since h k);
  h_miss : forall k v, last_value h k = Some v -> ~ In k (map fst L) -> (cap t <= length (used_since h k))%nat
}.
Lemma used_nodup h k : NoDup (used_since h k) /\ ~ In k (used_since h k).
Proof.
  induction h as [|e h [IH1 IH2]]; cbn; [split; [constructor|tauto]|]. destruct (uses e) as [k'|]; auto.
  destruct (Z.eqb_spec k' k); [split; [constructor|tauto]|]. destruct (existsb (Z.eqb k') (used_since h k)) eqn:E; auto. split.
  - constructor; auto. intros I. apply Bool.not_true_iff_false in E. apply E. apply existsb_exists. exists k'. split; auto. apply Z.eqb_refl.
  - intros [->|]; congruence.
Qed.
Lemma used_step e h k k' : uses e = Some k' -> k' <> k -> In k' (used_since (e :: h) k) /\ incl (used_since h k) (used_since (e :: h) k) /\
  (length (used_since h k) <= length (used_since (e :: h) k))%nat.
Proof.
  intros E N. cbn. rewrite E. destruct (Z.eqb_spec k' k); [lia|]. destruct (existsb (Z.eqb k') (used_since h k)) eqn:X.
  - split; [|split; [intros x I; auto|lia]]. apply existsb_exists in X. destruct X as (x & I & Q). apply Z.eqb_eq in Q. subst. auto.
  - split; [left; auto|]. split; [intros x I; right; auto|cbn; lia].
Qed.
Lemma used_none e h k : uses e = None -> used_since (e :: h) k = used_since h k.
Proof. intros E. cbn. rewrite E. auto. Qed.
Lemma NoDup_filter_keys k L : NoDup (map fst L) -> NoDup (map fst (without k L)) /\ ~ In k (map fst (without k L)) /\ incl (without k L) L /\
  (forall k', k' <> k -> In k' (map fst L) -> In k' (map fst (without k L))).
Proof.
  induction L as [|[k' v] L IH]; cbn; intros N; [split; [constructor|]; split; [tauto|]; split; [intros x []|tauto]|].
  inversion N; subst. destruct (IH H3) as (A & B & C & D). destruct (Z.eqb_spec k' k) as [->|NE]; cbn.
  - split; auto. split; auto. split; [intros x I; right; auto|]. intros k'' N'' [E|I]; [congruence|auto].
  - split; [constructor; auto; intros I; apply H2; apply in_map_iff in I; destruct I as (x & E & I); apply C in I; rewrite <- E; apply in_map; auto|].
    split; [intros [E|I]; tauto|]. split; [intros x [<-|I]; [left; auto|right; auto]|]. intros k'' N'' [E|I]; auto.
Qed.
Lemma without_split k L a k' v b : NoDup (map fst L) -> without k L = a ++ (k', v) :: b -> exists a' b', L = a' ++ (k', v) :: b' /\ incl (map fst b) (map fst b') /\ k' <> k.
Proof.
  revert a. induction L as [|[x y] L IH]; intros a N E; [destruct a; discriminate|]. cbn in E. inversion N; subst.
  destruct (Z.eqb_spec x k) as [->|NE]; cbn in E.
  - destruct (IH a H3 E) as (a' & b' & E1 & E2 & E3). exists ((k, y) :: a'), b'. split; [cbn; f_equal; auto|]. auto.
  - destruct a as [|e a]; inversion E; subst.
    + exists [], L. split; auto. split; auto. intros z I. apply in_map_iff in I. destruct I as (q & <- & I). apply in_map.
      apply (proj1 (proj2 (proj2 (NoDup_filter_keys k L H3)))). auto.
    + destruct (IH a H3 H4) as (a' & b' & E1 & E2 & E3). exists ((x, y) :: a'), b'. split; [cbn; f_equal; auto|]. auto.
Qed.
Lemma snoc_split (L : list (Z * Z)) x a e b : L ++ [x] = a ++ e :: b -> (b = [] /\ e = x /\ a = L) \/ exists b', b = b' ++ [x] /\ L = a ++ e :: b'.
Proof.
  destruct (@exists_last _ (e :: b) ltac:(discriminate)) as (q & y & E). rewrite E, app_assoc. intros HH. apply app_inj_tail in HH. destruct HH as [E1 E2]. subst y.
  destruct b as [|b0 b].
  - left. destruct q as [|q0 q]; [|destruct q; discriminate]. inversion E; subst. rewrite app_nil_r. auto.
  - right. destruct q as [|q0 q]; [inversion E|]. inversion E; subst. exists q. auto.
Qed.
Lemma step_hist t L h o : H t L h -> H t (fst (a_step t L o)) ((o, snd (a_step t L o)) :: h).
Proof.
  intros [K LN V AF MS]. destruct o as [k v|k|k|]; cbn [a_step].
  - (* add *) cbn [fst snd]. set (L1 := without k L). set (d := (length L1 - Z.to_nat (t - 2))%nat). destruct (NoDup_filter_keys k L K) as (N1 & N2 & N3 & N4). fold L1 in N1, N2, N3, N4.
    assert (ND : NoDup (map fst (skipn d L1 ++ [(k, v)]))).
    { rewrite map_app. cbn. rewrite <- skipn_map. rewrite <- (firstn_skipn d (map fst L1)) in N1.
      assert (NK' : ~ In k (skipn d (map fst L1))). { intros I. apply N2. rewrite <- (firstn_skipn d (map fst L1)). apply in_or_app. auto. }
      apply NoDup_remove_1 with (l := skipn d (map fst L1)) (a := k) (l' := []) || idtac.
      assert (NS : NoDup (skipn d (map fst L1))). { clear - N1. induction (firstn d (map fst L1)); auto. inversion N1; auto. }
      eapply (Permutation_NoDup (Permutation_cons_append _ _)). constructor; auto. }
    assert (SK : forall x, In x (skipn d L1) -> In x L1) by (intros x I; rewrite <- (firstn_skipn d L1); apply in_or_app; auto).
    constructor.
    + auto.
    + rewrite app_length, skipn_length. cbn [length]. unfold cap, capacity. unfold d. lia.
    + intros k' v' I. cbn. apply in_app_or in I. destruct I as [I|[E|[]]].
      * destruct (Z.eqb_spec k k') as [->|NE]; [|apply V, N3, SK; auto]. exfalso. apply N2. apply SK in I. apply (in_map fst) in I. exact I.
      * inversion E; subst. rewrite Z.eqb_refl. auto.
    + intros a k' v' b E. apply snoc_split in E. destruct E as [(-> & _ & _)|(b' & -> & E)]; [intros x []|].
      assert (E' : L1 = (firstn d L1 ++ a) ++ (k', v') :: b') by (rewrite <- app_assoc, <- E, firstn_skipn; auto).
      destruct (without_split k L _ _ _ _ K E') as (a2 & b2 & E2 & I2 & NE).
      destruct (used_step (Add k v, None) h k' k eq_refl ltac:(congruence)) as (U1 & U2 & _).
      rewrite map_app. intros x I. apply in_app_or in I. destruct I as [I|[<-|[]]]; auto. apply U2. apply (AF a2 k' v' b2 E2). apply I2. auto.
    + intros k' v' LV NI. cbn [last_value] in LV. destruct (Z.eqb_spec k k') as [->|NE].
      { exfalso. apply NI. rewrite map_app. apply in_or_app. right. left. auto. }
      destruct (used_step (Add k v, None) h k' k eq_refl NE) as (U1 & U2 & U3).
      destruct (in_dec Z.eq_dec k' (map fst L)) as [IN|NIN].
      * (* evicted now *)
        apply (N4 k' ltac:(congruence)) in IN. apply in_map_iff in IN. destruct IN as ([k2 v2] & E2 & IN). cbn in E2. subst k2.
        rewrite <- (firstn_skipn d L1) in IN. apply in_app_or in IN. destruct IN as [IN|IN].
        2:{ exfalso. apply NI. rewrite map_app. apply in_or_app. left. apply (in_map fst) in IN. exact IN. }
        apply in_split in IN. destruct IN as (f1 & f2 & EF).
        assert (E' : L1 = f1 ++ (k', v2) :: (f2 ++ skipn d L1)) by (rewrite <- (firstn_skipn d L1) at 1; rewrite EF, <- app_assoc; reflexivity).
        destruct (without_split k L _ _ _ _ K E') as (a2 & b2 & EE & I2 & _).
        assert (INC : incl (k :: map fst (f2 ++ skipn d L1)) (used_since ((Add k v, None) :: h) k')).
        { intros x [<-|I]; auto. apply U2. apply (AF a2 k' v2 b2 EE). apply I2. auto. }
        assert (LL : (length (k :: map fst (f2 ++ skipn d L1)) <= length (used_since ((Add k v, None) :: h) k'))%nat).
        { apply NoDup_incl_length; auto. constructor.
          - intros I. apply N2. rewrite E', map_app. apply in_or_app. right. right. auto.
          - rewrite E', map_app in N1. apply NoDup_remove_1 in N1. clear - N1. induction (map fst f1); auto. inversion N1; auto. }
        cbn [length] in LL. rewrite map_length, app_length, skipn_length in LL. 
        assert (length L1 = length f1 + S (length f2 + length (skipn d L1)))%nat by (rewrite E' at 1; rewrite app_length; cbn [length]; rewrite app_length; auto).
        rewrite skipn_length in *. assert (0 < d)%nat by (destruct d; [destruct f1; discriminate|lia]).
        unfold cap, capacity. unfold d in *. lia.
      * specialize (MS k' v' LV NIN). lia.
  - (* find *) destruct (lookup k L) as [v|] eqn:E; cbn [fst snd].
    + apply lookup_in in E; auto. destruct (NoDup_filter_keys k L K) as (N1 & N2 & N3 & N4).
      assert (IFF : forall x, In x (map fst (without k L ++ [(k, v)])) <-> In x (map fst L)).
      { intros x. rewrite map_app, in_app_iff. cbn. split.
        - intros [I|[<-|[]]]; [|apply (in_map fst) in E; exact E]. apply in_map_iff in I. destruct I as (q & <- & I). apply in_map. auto.
        - intros I. destruct (Z.eq_dec x k); [right; left; auto|left; auto]. }
      constructor.
      * rewrite map_app. cbn. eapply (Permutation_NoDup (Permutation_cons_append _ _)). constructor; auto.
      * apply in_split in E. destruct E as (l1 & l2 & ->). rewrite without_mid by auto. rewrite !app_length in *. cbn [length] in *. lia.
      * intros k' v' I. cbn. apply V. apply in_app_or in I. destruct I as [I|[Q|[]]]; auto. congruence.
      * intros a k' v' b Q. apply snoc_split in Q. destruct Q as [(-> & _ & _)|(b' & -> & Q)]; [intros x []|].
        destruct (without_split k L _ _ _ _ K Q) as (a2 & b2 & E2 & I2 & NE).
        destruct (used_step (Find k, Some v) h k' k eq_refl ltac:(congruence)) as (U1 & U2 & _).
        rewrite map_app. intros x I. apply in_app_or in I. destruct I as [I|[<-|[]]]; auto. apply U2. apply (AF a2 k' v' b2 E2). apply I2. auto.
      * intros k' v' LV NI. cbn [last_value] in LV. rewrite IFF in NI. specialize (MS k' v' LV NI).
        assert (NE : k <> k'). { intros ->. apply NI. apply (in_map fst) in E. exact E. }
        destruct (used_step (Find k, Some v) h k' k eq_refl NE) as (_ & _ & U3). lia.
    + constructor; auto.
  - (* del *) cbn [fst snd]. destruct (NoDup_filter_keys k L K) as (N1 & N2 & N3 & N4). constructor; auto.
    + assert (length (without k L) <= length L)%nat; [|lia]. unfold without. clear. induction L; cbn; [lia|]. destruct (negb _); cbn; lia.
    + intros k' v' I. cbn. destruct (Z.eqb_spec k k') as [->|NE]; [|auto]. exfalso. apply N2. apply (in_map fst) in I. exact I.
    + intros a k' v' b Q. rewrite used_none by auto. destruct (without_split k L _ _ _ _ K Q) as (a2 & b2 & E2 & I2 & NE).
      intros x I. apply (AF a2 k' v' b2 E2). apply I2. auto.
    + intros k' v' LV NI. cbn [last_value] in LV. destruct (Z.eqb_spec k k') as [->|NE]; [discriminate|]. rewrite used_none by auto. eapply MS; eauto.
  - (* clear *) cbn [fst snd]. constructor; cbn; try constructor; try tauto; try discriminate. { lia. } intros a k v b Q. destruct a; discriminate.
Qed.

Lemma run_ok os : forall c P h, R c P -> H (thr c) (kvs P) h -> exists c' h' P', run c h os = Some (c', h') /\ R c' P' /\ H (thr c') (kvs P') h' /\ thr c' = thr c.
Proof.
  induction os as [|o os IH]; intros c P h RP HP; cbn [run]; [exists c, h, P; auto|].
  destruct (step_ok c P o RP) as (c1 & P1 & E & R1 & K1 & T1). rewrite E.
  assert (H1 : H (thr c1) (kvs P1) ((o, snd (a_step (thr c) (kvs P) o)) :: h)) by (rewrite K1, T1; apply step_hist; auto).
  destruct (IH c1 P1 _ R1 H1) as (c2 & h2 & P2 & E2 & R2 & H2 & T2). exists c2, h2, P2. split; [exact E2|]. split; auto. split; auto. congruence.
Qed.
Lemma R_init t : R (init t) [].
Proof. split; [|intros a []]. constructor; cbn; try constructor; try tauto. Qed.
Lemma H_init t : H t [] [].
Proof. constructor; cbn; try constructor; try tauto; try discriminate; try lia. intros a k v b Q. destruct a; discriminate. Qed.

Theorem run_total t os : exists r, run (init t) [] os = Some r.
Proof. destruct (run_ok os (init t) [] [] (R_init t) (H_init t)) as (c & h & P & E & _). eauto. Qed.
Lemma run_inv t os c h : run (init t) [] os = Some (c, h) -> exists P, R c P /\ H t (kvs P) h /\ thr c = t.
Proof.
  intros E. destruct (run_ok os (init t) [] [] (R_init t) (H_init t)) as (c' & h' & P & E' & R' & H' & T).
  rewrite E in E'. inversion E'; subst. cbn in T. subst. eauto.
Qed.
Theorem find_value t os c h k c' v : run (init t) [] os = Some (c, h) -> step c (Find k) = Some (c', Some v) -> last_value h k = Some v.
Proof.
  intros E F. destruct (run_inv _ _ _ _ E) as (P & RP & HP & T). destruct (step_ok c P (Find k) RP) as (c1 & P1 & E1 & _). rewrite F in E1. inversion E1; subst.
  cbn [a_step] in H2. destruct (lookup k (kvs P)) as [w|] eqn:LK; cbn in H2; [|discriminate]. inversion H2; subst. apply (h_val _ _ _ HP). apply lookup_in; auto. apply (h_keys _ _ _ HP).
Qed.
Theorem find_recent t os c h k v : run (init t) [] os = Some (c, h) -> last_value h k = Some v ->
  Z.of_nat (length (used_since h k)) < capacity t -> exists c', step c (Find k) = Some (c', Some v).
Proof.
  intros E LV U. destruct (run_inv _ _ _ _ E) as (P & RP & HP & T). destruct (step_ok c P (Find k) RP) as (c1 & P1 & E1 & _). exists c1. rewrite E1. f_equal. f_equal.
  cbn [a_step]. destruct (lookup k (kvs P)) as [w|] eqn:LK; cbn.
  - apply lookup_in in LK; [|apply (h_keys _ _ _ HP)]. apply (h_val _ _ _ HP) in LK. congruence.
  - exfalso. apply lookup_none in LK. pose proof (h_miss _ _ _ HP k v LV LK). unfold cap in *. lia.
Qed.
Theorem size_bound t os c h : run (init t) [] os = Some (c, h) -> Z.of_nat (size c) <= capacity t.
Proof.
  intros E. destruct (run_inv _ _ _ _ E) as (P & [w _] & HP & T). unfold size. rewrite (Permutation_length (w_map _ _ _ _ _ w)).
  rewrite app_nil_r, map_length. pose proof (h_len _ _ _ HP) as L. unfold kvs, cap in L. rewrite map_length in L. unfold trip, capacity in *. lia.
Qed.
(* no leak: every allocated node is reachable from the map *)
Theorem no_leak t os c h a : run (init t) [] os = Some (c, h) -> heap c a <> None <-> exists k, mfind k (mp c) = Some a.
Proof.
  intros E. destruct (run_inv _ _ _ _ E) as (P & [w _] & HP & T). split.
  - intros HA. pose proof (w_supp _ _ _ _ _ w a HA) as I. cbn in I. rewrite app_nil_r in I. apply in_map_iff in I. destruct I as ([a' [k v]] & E1 & I). cbn in E1. subst.
    exists k. apply (W_mfind _ _ _ _ k a w). eauto.
  - intros (k & F). apply (W_mfind _ _ _ _ k a w) in F. destruct F as (v & I). apply (w_heap _ _ _ _ _ w) in I. cbn in I. congruence.
Qed.
