(* Bounds of key ranges as bounds on the columns. *)
From Coq Require Import List ZArith Lia Bool.
From Verif Require Import Common.Bytes Common.KV Key.Model Key.Spec Key.ProofsKey Key.ProofsTop.
From Verif Require Import Like.Model Like.Spec Like.Proofs2 Path.Model Path.Spec Path.Scan Path.Hit Path.Tuples Path.Loop.
Import ListNotations.
Local Open Scope Z_scope.

Lemma vc_anti t v w : value_compare t w v = CompOpp (value_compare t v w).
Proof. destruct t, v, w; cbn; auto using Z.compare_antisym, bcompare_antisym. Qed.
Lemma vc_eq_sym t v w : value_compare t v w = Eq <-> value_compare t w v = Eq.
Proof. rewrite (vc_anti t v w). destruct (value_compare t v w); cbn; split; congruence. Qed.
Lemma vc_eq_trans t u v w : value_compare t u v = Eq -> value_compare t v w = Eq -> value_compare t u w = Eq.
Proof.
  destruct t, u, v, w; cbn; try congruence;
  try (rewrite !Z.compare_eq_iff; congruence); rewrite !bcompare_eq; congruence.
Qed.

Section Bounds.
Variables (E : env).
Notation t_ := (ct E).
Notation agree := (agree E).
Notation okv := (okv E).
Notation tkey := (tkey E).

Definition rval (r : row) (f : nat) : value := match r f with Some v => v | None => VNum 0 end.
Definition rvals (r : row) (fs : list nat) : list value := map (rval r) fs.
Definition cmpT (r : row) (P : list nat) (X : list value) : comparison := tuple_compare (map t_ P) X (rvals r P).

Lemma row_at r f : index_row E r -> In f (avail E) -> r f = Some (rval r f) /\ okv f (rval r f).
Proof. unfold index_row. rewrite Forall_forall. intros H Hf. destruct (H f Hf) as (v & A & B). unfold rval. rewrite A. auto. Qed.
Lemma rvals_ok r P : index_row E r -> incl P (avail E) -> Forall2 okv P (rvals r P).
Proof.
  intros I. induction P as [|f P IH]; intros N; [constructor|]. constructor; [apply row_at; auto; apply N; left; auto|].
  apply IH. intros x Hx. apply N. right; auto.
Qed.
Lemma okv_types P X : Forall2 okv P X -> Forall2 value_ok (map t_ P) X.
Proof. induction 1; cbn; constructor; auto. Qed.

Lemma entry_tenc r : index_row E r -> entry_key E r = tkey (avail E) (rvals r (avail E)).
Proof.
  intros I. unfold entry_key, Loop.tkey. f_equal.
  assert (G : forall P, incl P (avail E) -> flat_map (col_bytes E r) P = tenc (map t_ P) (rvals r P)).
  { induction P as [|f P IH]; intros N; cbn; auto. rewrite IH by (intros x Hx; apply N; right; auto). f_equal.
    destruct (row_at r f I) as [A B]; [apply N; left; auto|]. unfold col_bytes. rewrite A. unfold enc. rewrite encode_field_fenc by auto. auto. }
  apply G. apply incl_refl.
Qed.
Lemma entry_split r P rest : index_row E r -> avail E = P ++ rest ->
  entry_key E r = flag E ++ tenc (map t_ P) (rvals r P) ++ tenc (map t_ rest) (rvals r rest).
Proof.
  intros I A. rewrite entry_tenc by auto. unfold Loop.tkey. rewrite A. unfold rvals. rewrite !map_app, tenc_app; auto.
  rewrite !map_length. auto.
Qed.

Lemma key_cmp r P rest X u : index_row E r -> avail E = P ++ rest -> Forall2 okv P X ->
  bcompare (tkey P X ++ u) (entry_key E r) = match cmpT r P X with Eq => bcompare u (tenc (map t_ rest) (rvals r rest)) | c => c end.
Proof.
  intros I A F. rewrite (entry_split r P rest) by auto. unfold Loop.tkey. rewrite <- app_assoc, bcompare_app_same.
  apply tenc_compare; apply okv_types; auto. apply rvals_ok; auto. rewrite A. apply incl_appl, incl_refl.
Qed.
Lemma key_prefix r P rest X : index_row E r -> avail E = P ++ rest -> Forall2 okv P X ->
  prefix_of (tkey P X) (entry_key E r) <-> cmpT r P X = Eq.
Proof.
  intros I A F. split.
  - intros [x Q]. pose proof (key_cmp r P rest X x I A F) as K. rewrite Q, bcompare_refl in K. destruct (cmpT r P X); congruence.
  - intros C. rewrite (entry_split r P rest) by auto. exists (tenc (map t_ rest) (rvals r rest)). unfold Loop.tkey. rewrite <- app_assoc. f_equal. f_equal.
    assert (FR : Forall2 okv P (rvals r P)) by (apply rvals_ok; auto; rewrite A; apply incl_appl, incl_refl).
    pose proof (tenc_compare (map t_ P) X (rvals r P) [] [] (okv_types _ _ F) (okv_types _ _ FR)) as K. unfold cmpT in C. rewrite C in K. cbn in K.
    rewrite !app_nil_r in K. apply bcompare_eq in K. auto.
Qed.
Lemma fenc_nonempty t v : value_ok t v -> fenc t v <> [].
Proof.
  destruct v as [z|s]; cbn; [|destruct s; discriminate]. intros H Q. apply (f_equal (@length Z)) in Q. rewrite be_bytes_length in Q.
  destruct t; cbn in *; try discriminate; contradiction.
Qed.
Lemma tkey_nonempty P X : P <> [] -> Forall2 okv P X -> tkey P X <> [].
Proof.
  intros N F Q. apply app_eq_nil in Q. destruct Q as [_ Q]. destruct F as [|f v P X V F]; [congruence|]. cbn in Q.
  apply app_eq_nil in Q. destruct Q as [Q _]. eapply fenc_nonempty; eauto.
Qed.

Lemma above_iff r P rest X (open : bool) : index_row E r -> avail E = P ++ rest -> Forall2 okv P X -> (open = true -> P <> []) ->
  above open (tkey P X) (entry_key E r) <-> if open then cmpT r P X = Lt else cmpT r P X <> Gt.
Proof.
  intros I A F O. pose proof (key_prefix r P rest X I A F) as PF. pose proof (key_cmp r P rest X [] I A F) as K. rewrite app_nil_r in K.
  unfold above. destruct open.
  - pose proof (tkey_nonempty P X (O eq_refl) F) as NE. split.
    + intros [H|[H1 H2]]; [contradiction|]. rewrite K in H1. rewrite PF in H2. destruct (cmpT r P X); congruence.
    + intros C. right. rewrite K, C. split; auto. rewrite PF. congruence.
  - split.
    + intros [H|H].
      * destruct P as [|f P]; [|exfalso; eapply tkey_nonempty; eauto; discriminate]. inversion F. cbn. discriminate.
      * rewrite K in H. destruct (cmpT r P X); congruence.
    + intros C. right. rewrite K. destruct (cmpT r P X); try congruence. destruct (tenc (map t_ rest) (rvals r rest)); cbn; congruence.
Qed.
Lemma below_iff r P rest X (open : bool) : index_row E r -> avail E = P ++ rest -> Forall2 okv P X -> (open = true -> P <> []) ->
  below open (tkey P X) (entry_key E r) <-> if open then cmpT r P X = Gt else cmpT r P X <> Lt.
Proof.
  intros I A F O. pose proof (key_prefix r P rest X I A F) as PF. pose proof (key_cmp r P rest X [] I A F) as K. rewrite app_nil_r in K.
  pose proof (bcompare_antisym (tkey P X) (entry_key E r)) as AS. rewrite K in AS.
  unfold below. destruct open.
  - pose proof (tkey_nonempty P X (O eq_refl) F) as NE. split.
    + intros [H|H]; [contradiction|]. rewrite AS in H. destruct (cmpT r P X); [|discriminate|auto].
      destruct (tenc (map t_ rest) (rvals r rest)); cbn in H; discriminate.
    + intros C. right. rewrite AS, C. auto.
  - split.
    + intros [H|[H|H]].
      * destruct P as [|f P]; [|exfalso; eapply tkey_nonempty; eauto; discriminate]. inversion F. cbn. discriminate.
      * rewrite AS in H. destruct (cmpT r P X); cbn in H; congruence.
      * rewrite PF in H. congruence.
    + intros C. right. rewrite AS, PF. destruct (cmpT r P X); cbn; auto; left; discriminate.
Qed.

Lemma cmpT_app r P Q X Y : length X = length P -> cmpT r (P ++ Q) (X ++ Y) = match cmpT r P X with Eq => cmpT r Q Y | c => c end.
Proof.
  unfold cmpT, rvals. revert X. induction P as [|f P IH]; intros [|v X] L; cbn in L; try discriminate; cbn; auto.
  destruct (value_compare (t_ f) v (rval r f)); auto.
Qed.
Lemma agree_cmp r P X : index_row E r -> incl P (avail E) -> length X = length P -> agree r P X <-> cmpT r P X = Eq.
Proof.
  intros I. revert X. induction P as [|f P IH]; intros [|v X] N L; cbn in L; try discriminate.
  - split; [auto|constructor].
  - destruct (row_at r f I) as [A B]; [apply N; left; auto|].
    unfold cmpT. cbn. rewrite vc_anti. 
    assert (N' : incl P (avail E)) by (intros x Hx; apply N; right; auto). specialize (IH X N' ltac:(lia)). unfold cmpT in IH.
    split.
    + intros H. inversion H as [|? ? ? ? (w & W1 & W2) R]; subst. assert (w = rval r f) by congruence. subst. rewrite W2. cbn. apply IH. auto.
    + intros H. destruct (value_compare (t_ f) (rval r f) v) eqn:C; cbn in H; try discriminate. constructor; [exists (rval r f); auto|]. apply IH. auto.
Qed.

(* what a comparison operator says of the columns *)
Definition goodc (lower open : bool) (c : comparison) : Prop :=
  if lower then (if open then c = Lt else c <> Gt) else (if open then c = Gt else c <> Lt).
Definition dir_op (lower : bool) := if lower then lower_op else upper_op.
Lemma good_test lower open o c : dir_op lower o = Some open -> test o (CompOpp c) = true <-> goodc lower open c.
Proof. destruct lower, o; cbn; try discriminate; intros [= <-]; destruct c; cbn; split; congruence. Qed.

Lemma row_order_full r o lower open ids vs : dir_op lower o = Some open -> index_row E r -> incl ids (avail E) -> length vs = length ids ->
  row_order (map t_ ids) o (map r ids) (map Some vs) = true <-> goodc lower open (cmpT r ids vs).
Proof.
  intros D I. revert vs. induction ids as [|f ids IH]; intros [|v vs] N L; cbn in L; try discriminate.
  - cbn. change Eq with (CompOpp Eq) at 1. apply good_test. auto.
  - destruct (row_at r f I) as [A B]; [apply N; left; auto|]. cbn. rewrite A. unfold cmpT in *. cbn. rewrite vc_anti.
    destruct (value_compare (t_ f) v (rval r f)) eqn:C; cbn.
    + apply IH; [intros x Hx; apply N; right; auto|lia].
    + change Gt with (CompOpp Lt). rewrite good_test by eauto. tauto.
    + change Lt with (CompOpp Gt) at 1. rewrite good_test by eauto. tauto.
Qed.
Lemma row_order_part r o lower open P Q X Y : dir_op lower o = Some open -> index_row E r -> incl P (avail E) -> length X = length P ->
  row_order (map t_ (P ++ Q)) o (map r (P ++ Q)) (map Some (X ++ Y)) = true -> goodc lower false (cmpT r P X).
Proof.
  intros D I. revert X. induction P as [|f P IH]; intros [|v X] N L; cbn in L; try discriminate.
  - intros _. unfold cmpT, goodc. cbn. destruct lower; discriminate.
  - destruct (row_at r f I) as [A B]; [apply N; left; auto|]. cbn. rewrite A. unfold cmpT in *. cbn. rewrite vc_anti.
    destruct (value_compare (t_ f) v (rval r f)) eqn:C; cbn.
    + apply IH; [intros x Hx; apply N; right; auto|lia].
    + change Gt with (CompOpp Lt). rewrite good_test by eauto. destruct lower, open; cbn; congruence.
    + change Lt with (CompOpp Gt). rewrite good_test by eauto. destruct lower, open; cbn; congruence.
Qed.
End Bounds.
