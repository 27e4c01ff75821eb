From Coq Require Import ZArith List Bool Permutation Lia.
From Verif Require Import Olap.Model Olap.Spec.
Import ListNotations.
Local Open Scope Z_scope.

(* ---- machine integers ---- *)

Lemma wrap_range k z : in_range k (wrap k z).
Proof.
  destruct k; unfold wrap, signed_wrap; cbn [in_range].
  - pose proof (Z.mod_pos_bound (z + 2 ^ (32 - 1)) (2 ^ 32) ltac:(lia)). change (2 ^ (32 - 1)) with 2147483648 in *. change (2 ^ 32) with 4294967296 in *. lia.
  - change (2 ^ 32) with 4294967296. apply Z.mod_pos_bound. lia.
  - pose proof (Z.mod_pos_bound (z + 2 ^ (64 - 1)) (2 ^ 64) ltac:(lia)). change (2 ^ (64 - 1)) with 9223372036854775808 in *. change (2 ^ 64) with 18446744073709551616 in *. lia.
  - change (2 ^ 64) with 18446744073709551616. apply Z.mod_pos_bound. lia.
Qed.

Lemma modulus_pos k : 0 < modulus k.
Proof. destruct k; reflexivity. Qed.

Lemma wrap_cong k z : exists q, wrap k z = z + q * modulus k.
Proof.
  destruct k; unfold wrap, signed_wrap; cbn [modulus];
  change (2 ^ (32 - 1)) with 2147483648; change (2 ^ 32) with 4294967296;
  change (2 ^ (64 - 1)) with 9223372036854775808; change (2 ^ 64) with 18446744073709551616.
  - exists (- ((z + 2147483648) / 4294967296)). rewrite Z.mod_eq by lia. lia.
  - exists (- (z / 4294967296)). rewrite Z.mod_eq by lia. lia.
  - exists (- ((z + 9223372036854775808) / 18446744073709551616)). rewrite Z.mod_eq by lia. lia.
  - exists (- (z / 18446744073709551616)). rewrite Z.mod_eq by lia. lia.
Qed.

Lemma in_range_inj k a b q : in_range k a -> in_range k b -> a = b + q * modulus k -> a = b.
Proof. destruct k; cbn [in_range modulus]; intros; assert (q = 0) by nia; subst; lia. Qed.

Lemma wrap_id k a : in_range k a -> wrap k a = a.
Proof. intros R. destruct (wrap_cong k a) as [q E]. eapply in_range_inj; [apply wrap_range|exact R|exact E]. Qed.

Lemma wrap_eq k a b q : a = b + q * modulus k -> wrap k a = wrap k b.
Proof.
  intros E. destruct (wrap_cong k a) as [x X], (wrap_cong k b) as [y Y].
  eapply in_range_inj with (q := x - y + q); [apply wrap_range|apply wrap_range|]. rewrite X, Y, E. lia.
Qed.

Lemma wrap_add_l k a b : wrap k (wrap k a + b) = wrap k (a + b).
Proof. destruct (wrap_cong k a) as [q E]. apply wrap_eq with (q := q). lia. Qed.
Lemma wrap_add_r k a b : wrap k (a + wrap k b) = wrap k (a + b).
Proof. rewrite Z.add_comm, wrap_add_l, Z.add_comm. reflexivity. Qed.

(* ---- one column ---- *)

Definition acc (k : kind) (x y : option Z) : option Z :=
  match y with Some v => Some (wrap k (val x + v)) | None => x end.

Lemma set_same r i v : set r i v i = v.
Proof. unfold set. rewrite Z.eqb_refl. reflexivity. Qed.
Lemma set_other r i v j : j <> i -> set r i v j = r j.
Proof. unfold set. intros. destruct (Z.eqb_spec j i); congruence. Qed.

Lemma add_sums_other fs : forall base delta i, ~ In i (map sf_idx fs) -> add_sums fs base delta i = base i.
Proof.
  induction fs as [|f fs IH]; intros base delta i Hi; cbn [add_sums]; [reflexivity|].
  cbn in Hi. rewrite IH by tauto. destruct (delta (sf_idx f)); [|reflexivity].
  unfold add_value. apply set_other. intros ->. tauto.
Qed.

Lemma add_sums_in fs : NoDup (map sf_idx fs) -> forall base delta f, In f fs ->
  add_sums fs base delta (sf_idx f) = acc (sf_kind f) (base (sf_idx f)) (delta (sf_idx f)).
Proof.
  induction fs as [|g fs IH]; intros Hd base delta f Hf; [destruct Hf|]. cbn [add_sums].
  inversion Hd as [|? ? Hn Hd']; subst. destruct Hf as [->|Hf].
  - rewrite add_sums_other by exact Hn. destruct (delta (sf_idx f)); [|reflexivity].
    unfold add_value. rewrite set_same. reflexivity.
  - rewrite IH by assumption. f_equal. destruct (delta (sf_idx g)); [|reflexivity].
    unfold add_value. apply set_other. intros E. apply Hn. rewrite <- E. apply in_map. exact Hf.
Qed.

Lemma merge_ops_app t o1 : forall b o2, merge_ops t b (o1 ++ o2) =
  match merge_ops t b o1 with Some b' => merge_ops t b' o2 | None => None end.
Proof.
  induction o1 as [|o o1 IH]; intros b o2; cbn [app merge_ops]; [reflexivity|].
  destruct (merge_step t b o); [apply IH|reflexivity].
Qed.

Definition summed (t : table) (i : Z) : Prop := In i (map sf_idx (t_sums t)) \/ t_version t = Some i.

Lemma row_ok_step t b o : table_ok t -> row_ok t b -> row_ok t o -> exists b', merge_step t b o = Some b' /\ row_ok t b'.
Proof.
  intros [Hd Hv] [Hb Hbv] [Hor Hov]. unfold merge_step, row_ok in *. destruct (t_version t) as [vi|].
  - destruct (b vi) as [bv|] eqn:Eb; [|congruence]. destruct (o vi) as [v|] eqn:Eo; [|congruence].
    destruct (_ && _).
    + exists b. split; [reflexivity|]. split; [exact Hb|congruence].
    + eexists. split; [reflexivity|]. split.
      * intros f x Hf. rewrite add_sums_in by assumption.
        rewrite set_other by (intros E; apply Hv; rewrite <- E; apply in_map; exact Hf).
        unfold acc. destruct (o (sf_idx f)); [intros E; injection E as <-; apply wrap_range|apply Hb; exact Hf].
      * rewrite add_sums_other by exact Hv. rewrite set_same. discriminate.
  - eexists. split; [reflexivity|]. split; [|exact Logic.I].
    intros f x Hf. rewrite add_sums_in by assumption.
    unfold acc. destruct (o (sf_idx f)); [intros E; injection E as <-; apply wrap_range|apply Hb; exact Hf].
Qed.

Lemma row_ok_ops t ops : table_ok t -> forall b, row_ok t b -> Forall (row_ok t) ops ->
  exists b', merge_ops t b ops = Some b' /\ row_ok t b'.
Proof.
  intros Ht. induction ops as [|o ops IH]; intros b Hb Hops; cbn [merge_ops]; [eauto|].
  inversion Hops; subst. destruct (row_ok_step t b o Ht Hb ltac:(assumption)) as (b' & -> & Hb'). apply IH; assumption.
Qed.

(* ---- rows that agree on some columns ---- *)

Definition agree (P : Z -> Prop) (r s : row) : Prop := forall i, P i -> r i = s i.

Lemma agree_step t (P : Z -> Prop) b b' o o' : table_ok t -> (forall i, summed t i -> P i) -> agree P b b' -> agree (summed t) o o' ->
  match merge_step t b o, merge_step t b' o' with
  | Some r, Some r' => agree P r r' | None, None => True | _, _ => False end.
Proof.
  intros [Hd Hv] HP Hb Hag. 
  assert (A : forall c c', agree P c c' -> agree P (add_sums (t_sums t) c o) (add_sums (t_sums t) c' o')).
  { intros c c' Hc i Hi. destruct (in_dec Z.eq_dec i (map sf_idx (t_sums t))) as [Hin|Hin].
    - assert (Eo : o i = o' i) by (apply Hag; left; exact Hin).
      apply in_map_iff in Hin. destruct Hin as (f & <- & Hf). rewrite !add_sums_in by assumption. rewrite Eo, (Hc _ Hi). reflexivity.
    - rewrite !add_sums_other by exact Hin. apply Hc. exact Hi. }
  unfold merge_step. destruct (t_version t) as [vi|] eqn:Ev.
  - assert (Sv : summed t vi) by (right; exact Ev).
    rewrite <- (Hb vi (HP _ Sv)), <- (Hag vi Sv). destruct (b vi), (o vi); try exact Logic.I.
    destruct (_ && _); [exact Hb|]. apply A. intros i Hi. unfold set. destruct (i =? vi); [reflexivity|apply Hb; exact Hi].
  - apply A. exact Hb.
Qed.

Lemma agree_ops t (P : Z -> Prop) ops : table_ok t -> (forall i, summed t i -> P i) -> forall b b', agree P b b' ->
  match merge_ops t b ops, merge_ops t b' ops with
  | Some r, Some r' => agree P r r' | None, None => True | _, _ => False end.
Proof.
  intros Ht HP. induction ops as [|o ops IH]; intros b b' Hb; cbn [merge_ops]; [exact Hb|].
  pose proof (agree_step t P b b' o o Ht HP Hb ltac:(intros i _; reflexivity)) as S1.
  destruct (merge_step t b o), (merge_step t b' o); try contradiction; [apply IH; exact S1|exact Logic.I].
Qed.

(* ---- partial merge ---- *)

Lemma partial_sums_spec fs l : NoDup (map sf_idx fs) -> forall r m, partial_sums fs l r = Some m ->
  (forall i, ~ In i (map sf_idx fs) -> m i = r i) /\
  (forall f, In f fs -> exists v, l (sf_idx f) = Some v /\ m (sf_idx f) = Some (wrap (sf_kind f) (val (r (sf_idx f)) + v))).
Proof.
  induction fs as [|f fs IH]; intros Hd r m; cbn [partial_sums].
  - intros E. injection E as <-. split; [auto|intros f []].
  - inversion Hd as [|? ? Hn Hd']; subst. destruct (l (sf_idx f)) as [v|] eqn:El; [|discriminate].
    intros E. destruct (IH Hd' _ _ E) as [A B]. split.
    + intros i Hi. cbn in Hi. rewrite A by tauto. unfold add_value. apply set_other. intros ->. tauto.
    + intros g [->|Hg].
      * exists v. split; [exact El|]. rewrite A by exact Hn. unfold add_value. rewrite set_same. reflexivity.
      * destruct (B g Hg) as (w & El' & Em). exists w. split; [exact El'|]. rewrite Em. unfold add_value.
        rewrite set_other; [reflexivity|]. intros X. apply Hn. rewrite <- X. apply in_map. exact Hg.
Qed.

Lemma acc_partial k x l r : acc k (acc k x (Some l)) r = Some (wrap k (val x + wrap k (val r + l))).
Proof.
  destruct r as [r|]; cbn [acc val].
  - rewrite wrap_add_l, wrap_add_r. do 2 f_equal. lia.
  - rewrite Z.add_0_l, wrap_add_r. reflexivity.
Qed.

Lemma partial_version t l r m : table_ok t -> partial_merge t l r = Some m -> row_ok t r ->
  row_ok t m /\
  match t_version t with Some vi => l vi = Some 0 /\ r vi = Some 0 /\ m vi = Some 0 | None => True end /\
  (forall f, In f (t_sums t) -> exists v, l (sf_idx f) = Some v /\ m (sf_idx f) = Some (wrap (sf_kind f) (val (r (sf_idx f)) + v))).
Proof.
  intros [Hd Hv] Hp Hr. unfold partial_merge in Hp. unfold row_ok in *. destruct (t_version t) as [vi|].
  - destruct (l vi) as [[| |]|] eqn:El; try discriminate. destruct (r vi) as [[| |]|] eqn:Er; try discriminate.
    destruct (partial_sums_spec _ _ Hd _ _ Hp) as [A B]. split; [split|].
    + intros f v Hf. destruct (B f Hf) as (w & _ & ->). intros E. injection E as <-. apply wrap_range.
    + rewrite A by exact Hv. congruence.
    + split; [|exact B]. rewrite A by exact Hv. auto.
  - destruct (partial_sums_spec _ _ Hd _ _ Hp) as [A B]. split; [split; [|exact Logic.I]|split; [exact Logic.I|exact B]].
    intros f v Hf. destruct (B f Hf) as (w & _ & ->). intros E. injection E as <-. apply wrap_range.
Qed.

Lemma partial_step t b l r m : table_ok t -> row_ok t b -> row_ok t l -> row_ok t r -> partial_merge t l r = Some m ->
  exists b1 b2 b3, merge_step t b l = Some b1 /\ merge_step t b1 r = Some b2 /\ merge_step t b m = Some b3 /\ forall i, b2 i = b3 i.
Proof.
  intros Ht Hb Hl Hr Hp. destruct (partial_version t l r m Ht Hp Hr) as (Hm & Hver & Hs).
  destruct (row_ok_step t b l Ht Hb Hl) as (b1 & E1 & Hb1). destruct (row_ok_step t b1 r Ht Hb1 Hr) as (b2 & E2 & _).
  destruct (row_ok_step t b m Ht Hb Hm) as (b3 & E3 & _). exists b1, b2, b3. repeat (split; [assumption|]).
  destruct Ht as [Hd Hv]. intros i. unfold merge_step in *. destruct (t_version t) as [vi|] eqn:Ev.
  - destruct Hver as (V1 & V2 & V3). rewrite V1 in E1. rewrite V2 in E2. rewrite V3 in E3.
    destruct (b vi) as [bv|] eqn:Eb; [|discriminate].
    destruct ((0 <=? bv) && negb ((0 =? 0) && (bv =? 0))) eqn:C.
    + injection E1 as <-. injection E3 as <-. rewrite Eb, C in E2. injection E2 as <-. reflexivity.
    + injection E1 as <-. injection E3 as <-.
      rewrite add_sums_other in E2 by exact Hv. rewrite set_same in E2. cbn in E2. injection E2 as <-.
      destruct (in_dec Z.eq_dec i (map sf_idx (t_sums t))) as [Hin|Hin].
      * apply in_map_iff in Hin. destruct Hin as (f & <- & Hf). rewrite !add_sums_in by assumption.
        assert (Hne : sf_idx f <> vi) by (intros E; apply Hv; rewrite <- E; apply in_map; exact Hf).
        rewrite set_other by exact Hne. rewrite add_sums_in by assumption. rewrite !set_other by exact Hne.
        destruct (Hs f Hf) as (v & -> & ->). rewrite acc_partial. reflexivity.
      * rewrite !add_sums_other by exact Hin. destruct (Z.eq_dec i vi) as [->|Hne]; [rewrite !set_same; reflexivity|].
        rewrite !set_other by exact Hne. rewrite add_sums_other, set_other by assumption. reflexivity.
  - injection E1 as <-. injection E2 as <-. injection E3 as <-.
    destruct (in_dec Z.eq_dec i (map sf_idx (t_sums t))) as [Hin|Hin].
    + apply in_map_iff in Hin. destruct Hin as (f & <- & Hf). rewrite !add_sums_in by assumption.
      destruct (Hs f Hf) as (v & -> & ->). rewrite acc_partial. reflexivity.
    + rewrite !add_sums_other by exact Hin. reflexivity.
Qed.

(* ---- any grouping ---- *)

Definition hist_ok (t : table) (s : option row * list row) : Prop :=
  match fst s with Some b => row_ok t b | None => snd s <> [] end /\ Forall (row_ok t) (snd s).

Lemma full_some t b ops : table_ok t -> row_ok t b -> Forall (row_ok t) ops ->
  exists v, full_merge t (Some b) ops = Some v /\ merge_ops t b ops = Some v /\ row_ok t v.
Proof. intros Ht Hb Hr. destruct (row_ok_ops t ops Ht b Hb Hr) as (v & E & Hv). exists v. unfold full_merge. rewrite E. auto. Qed.

Lemma full_none t o ops : full_merge t None (o :: ops) = full_merge t (Some o) ops.
Proof. reflexivity. Qed.

Lemma full_fold t b o1 o2 v : table_ok t -> hist_ok t (b, o1 ++ o2) -> full_merge t b o1 = Some v ->
  row_ok t v /\ full_merge t (Some v) o2 = full_merge t b (o1 ++ o2).
Proof.
  intros Ht [Hb Hr] E. cbn [fst snd] in *. apply Forall_app in Hr. destruct Hr as [H1 H2].
  assert (A : forall c o, row_ok t c -> Forall (row_ok t) o -> full_merge t (Some c) o = Some v ->
     row_ok t v /\ full_merge t (Some v) o2 = full_merge t (Some c) (o ++ o2)).
  { intros c o Hc Ho Ec. destruct (full_some t c o Ht Hc Ho) as (v' & E1 & E2 & Hv). rewrite E1 in Ec. injection Ec as ->.
    split; [exact Hv|]. destruct (full_some t v o2 Ht Hv H2) as (w & W1 & W2 & _). rewrite W1.
    unfold full_merge. rewrite merge_ops_app, E2, W2. reflexivity. }
  destruct b as [b|]; [apply A; assumption|]. destruct o1 as [|o o1]; [discriminate|].
  inversion H1; subst. cbn [app]. rewrite !full_none in *. apply A; assumption.
Qed.

Theorem grouping t flag s s' : table_ok t -> rewrites t flag s s' -> hist_ok t s ->
  exists v v', read t s = Some v /\ read t s' = Some v' /\
    forall i, flag = false \/ fst s <> None \/ summed t i -> v i = v' i.
Proof.
  intros Ht Hrw. induction Hrw as [s|b o1 o2 v s Hf Hrw IH|b o1 l r m o2 s Hfl Hp Hrw IH]; intros Hs.
  - unfold read. destruct s as [[b|] [|o ops]]; cbn [fst snd]; destruct Hs as [Hb Hr]; cbn [fst snd] in *; try congruence;
      eexists; eexists; repeat split; intros; reflexivity.
  - destruct (full_fold t b o1 o2 v Ht Hs Hf) as [Hv Ef]. destruct Hs as [Hb Hr]; cbn [fst snd] in *.
    apply Forall_app in Hr. destruct Hr as [_ H2].
    destruct (IH (conj Hv H2)) as (w & w' & E1 & E2 & Ag). exists w, w'. unfold read in *. cbn [fst snd] in *.
    rewrite <- Ef. repeat split; [exact E1|exact E2|]. intros i _. apply Ag. right. left. discriminate.
  - destruct Hs as [Hb Hr]; cbn [fst snd] in *. apply Forall_app in Hr. destruct Hr as [H1 H2].
    inversion H2 as [|? ? Hl H3]; inversion H3 as [|? ? Hr Ho2]; subst.
    destruct (partial_version t l r m Ht Hp Hr) as (Hm & Hver & Hsum).
    assert (Hs' : hist_ok t (b, o1 ++ m :: o2)).
    { split; cbn [fst snd]; [destruct b; [exact Hb|destruct o1; discriminate]|]. apply Forall_app. split; [exact H1|constructor; assumption]. }
    destruct (IH Hs') as (w & w' & E1 & E2 & Ag).
    assert (K : exists u, read t (b, o1 ++ l :: r :: o2) = Some u /\ forall i, fst (b, o1) <> None \/ summed t i -> u i = w i).
    { unfold read in *. cbn [fst snd] in *.
      assert (Both : forall c o, row_ok t c -> Forall (row_ok t) o ->
        full_merge t (Some c) (o ++ m :: o2) = Some w -> exists u, full_merge t (Some c) (o ++ l :: r :: o2) = Some u /\ forall i, u i = w i).
      { intros c o Hc Hoo Ew. destruct (row_ok_ops t o Ht c Hc Hoo) as (c' & Ec & Hc').
        unfold full_merge in Ew |- *. rewrite merge_ops_app, Ec in Ew |- *. cbn [merge_ops] in *.
        destruct (partial_step t c' l r m Ht Hc' Hl Hr Hp) as (b1 & b2 & b3 & S1 & S2 & S3 & Eq).
        rewrite S1, S2. rewrite S3 in Ew.
        pose proof (agree_ops t (fun _ => True) o2 Ht (fun _ _ => Logic.I) b2 b3 (fun i _ => Eq i)) as Ag2.
        assert (Hb3 : row_ok t b3). { destruct (row_ok_step t c' m Ht Hc' Hm) as (x & Ex & Hx). congruence. }
        destruct (row_ok_ops t o2 Ht b3 Hb3 Ho2) as (z & Ez & _). rewrite Ez in *. injection Ew as <-.
        destruct (merge_ops t b2 o2) as [u|]; [|contradiction]. exists u. split; [reflexivity|]. intros i. apply Ag2. exact Logic.I. }
      destruct b as [b|].
      - destruct (Both b o1 Hb H1 E1) as (u & Eu & Au). exists u. auto.
      - destruct o1 as [|o o1]; cbn [app] in *.
        + rewrite full_none in E1 |- *. unfold full_merge in E1 |- *. cbn [merge_ops].
          destruct (row_ok_step t l r Ht Hl Hr) as (b2 & S2 & Hb2). rewrite S2.
          assert (Ag0 : agree (summed t) b2 m).
          { intros i Hi. destruct Ht as [Hd Hv]. unfold merge_step in S2. destruct (t_version t) as [vi|] eqn:Ev.
            - destruct Hver as (V1 & V2 & V3). rewrite V1, V2 in S2. cbn in S2. injection S2 as <-.
              destruct Hi as [Hi|Hi].
              + apply in_map_iff in Hi. destruct Hi as (f & <- & Hf). rewrite add_sums_in by assumption.
                rewrite set_other by (intros E; apply Hv; rewrite <- E; apply in_map; exact Hf).
                destruct (Hsum f Hf) as (v & Elv & ->). rewrite Elv. unfold acc. destruct (r (sf_idx f)) as [x|]; cbn [val]; [rewrite Z.add_comm; reflexivity|].
                rewrite Z.add_0_l. rewrite wrap_id; [reflexivity|]. destruct Hl as [Hl _]. apply Hl; assumption.
              + rewrite Ev in Hi. injection Hi as ->. rewrite add_sums_other by exact Hv. rewrite set_same. congruence.
            - injection S2 as <-. destruct Hi as [Hi|Hi]; [|congruence].
              apply in_map_iff in Hi. destruct Hi as (f & <- & Hf). rewrite add_sums_in by assumption.
              destruct (Hsum f Hf) as (v & Elv & ->). rewrite Elv. unfold acc. destruct (r (sf_idx f)) as [x|]; cbn [val]; [rewrite Z.add_comm; reflexivity|].
              rewrite Z.add_0_l. rewrite wrap_id; [reflexivity|]. destruct Hl as [Hl _]. apply Hl; assumption. }
          pose proof (agree_ops t (summed t) o2 Ht (fun _ x => x) b2 m Ag0) as Ag2.
          destruct (row_ok_ops t o2 Ht b2 Hb2 Ho2) as (x & Ex & _), (row_ok_ops t o2 Ht m Hm Ho2) as (y & Ey & _).
          rewrite Ex, Ey in *. injection E1 as <-. exists x. split; [reflexivity|]. intros i [X|X]; [congruence|apply Ag2; exact X].
        + inversion H1; subst. rewrite full_none in *. destruct (Both o o1 ltac:(assumption) ltac:(assumption) E1) as (u & Eu & Au). exists u. auto. }
    destruct K as (u & Eu & Au). exists u, w'. repeat split; [exact Eu|exact E2|].
    intros i Hi. destruct Hi as [Hi|Hi]; [congruence|]. rewrite Au by exact Hi. apply Ag. right. exact Hi.
Qed.

(* ---- what a reader gets ---- *)

Lemma total_cons x xs : total (x :: xs) = val x + total xs.
Proof. reflexivity. Qed.

Lemma fold_acc k xs : forall x, (forall v, x = Some v -> in_range k v) -> is_sum k (x :: xs) (fold_left (acc k) xs x).
Proof.
  induction xs as [|y xs IH]; intros x Hx; cbn [fold_left].
  - unfold is_sum. destruct x as [v|].
    + split; [left; discriminate|]. split; [apply Hx; reflexivity|]. rewrite total_cons. cbn. rewrite Z.add_0_r, Z.sub_diag. apply Z.mod_0_l. pose proof (modulus_pos k); lia.
    + repeat constructor.
  - assert (Hacc : forall v, acc k x y = Some v -> in_range k v).
    { unfold acc. destruct y; [intros v E; injection E as <-; apply wrap_range|exact Hx]. }
    specialize (IH (acc k x y) Hacc). unfold is_sum in *. destruct (fold_left (acc k) xs (acc k x y)) as [v|].
    + destruct IH as (Ex & Rg & Md). split.
      * inversion Ex as [? ? E0|? ? E0]; subst; [|right; right; exact E0].
        unfold acc in E0. destruct y; [right; left; discriminate|left; exact E0].
      * split; [exact Rg|]. rewrite !total_cons in *. unfold acc in Md. destruct y as [y|]; cbn [val] in *.
        -- destruct (wrap_cong k (val x + y)) as [q E]. rewrite E in Md.
           replace (v - (val x + (y + total xs))) with (v - (val x + y + q * modulus k + total xs) + q * modulus k) by lia.
           rewrite Z.mod_add by (pose proof (modulus_pos k); lia). exact Md.
        -- rewrite Z.add_0_l. exact Md.
    + inversion IH as [|? ? E0 Fa]; subst. unfold acc in E0. destruct y; [discriminate|]. constructor; [exact E0|constructor; [reflexivity|exact Fa]].
Qed.

Lemma column_sum t b ops r f : table_ok t -> t_version t = None -> In f (t_sums t) -> merge_ops t b ops = Some r ->
  r (sf_idx f) = fold_left (acc (sf_kind f)) (map (fun o : row => o (sf_idx f)) ops) (b (sf_idx f)).
Proof.
  intros [Hd _] Hv Hf. revert b. induction ops as [|o ops IH]; intros b; cbn [merge_ops map fold_left].
  - intros E. injection E as <-. reflexivity.
  - unfold merge_step. rewrite Hv. intros E. rewrite (IH _ E). rewrite add_sums_in by assumption. reflexivity.
Qed.

Lemma column_sum_version t vi b bv ops : table_ok t -> t_version t = Some vi -> b vi = Some bv ->
  Forall (fun o : row => o vi <> None) ops ->
  exists cs r, counted vi bv ops cs /\ merge_ops t b ops = Some r /\
    (forall f, In f (t_sums t) -> r (sf_idx f) = fold_left (acc (sf_kind f)) (map (fun o : row => o (sf_idx f)) cs) (b (sf_idx f))) /\
    (forall i, ~ In i (map sf_idx (t_sums t)) -> i <> vi -> r i = b i) /\
    exists v, r vi = Some v /\ v = fold_left Z.max (map (fun o : row => val (o vi)) ops) bv.
Proof.
  intros [Hd Hv] Ev. rewrite Ev in Hv. intros Hb Ho. revert b bv Hb.
  induction Ho as [|o ops Hon _ IH]; intros b bv Hb; cbn [merge_ops].
  - exists [], b. split; [constructor|]. split; [reflexivity|]. split; [reflexivity|]. split; [auto|]. exists bv. auto.
  - destruct (o vi) as [v|] eqn:Eo; [|congruence]. unfold merge_step. rewrite Ev, Hb, Eo.
    destruct ((v <=? bv) && negb ((v =? 0) && (bv =? 0))) eqn:C.
    + apply andb_true_iff in C. destruct C as [C1 C2]. apply Z.leb_le in C1.
      destruct (IH b bv Hb) as (cs & r & Hc & Hr & Hf & Hoth & Hmax). exists cs, r.
      split; [eapply ct_old; eauto|].
      { intros [-> ->]. rewrite !Z.eqb_refl in C2. discriminate. }
      split; [exact Hr|]. split; [exact Hf|]. split; [exact Hoth|].
      destruct Hmax as (x & E1 & E2). exists x. split; [exact E1|]. cbn [map fold_left]. rewrite Eo. cbn [val]. rewrite Z.max_l by lia. exact E2.
    + assert (Cv : v > bv \/ (v = 0 /\ bv = 0)).
      { apply andb_false_iff in C. destruct C as [C|C]; [apply Z.leb_gt in C; lia|].
        apply negb_false_iff, andb_true_iff in C. destruct C as [C1 C2]. apply Z.eqb_eq in C1, C2. auto. }
      set (b1 := add_sums (t_sums t) (set b vi (Some v)) o).
      assert (Hb1 : b1 vi = Some v) by (unfold b1; rewrite add_sums_other by exact Hv; apply set_same).
      destruct (IH b1 v Hb1) as (cs & r & Hc & Hr & Hf & Hoth & Hmax). exists (o :: cs), r.
      split; [eapply ct_new; eauto|]. split; [exact Hr|]. split; [|split].
      * intros f Hin. rewrite (Hf f Hin). cbn [map fold_left]. f_equal. unfold b1. rewrite add_sums_in by assumption.
        rewrite set_other; [reflexivity|]. intros E; apply Hv; rewrite <- E; apply in_map; exact Hin.
      * intros i Hi Hne. rewrite Hoth by assumption. unfold b1. rewrite add_sums_other, set_other by assumption. reflexivity.
      * destruct Hmax as (x & E1 & E2). exists x. split; [exact E1|]. cbn [map fold_left]. rewrite Eo. cbn [val].
        rewrite Z.max_r by lia. exact E2.
Qed.

Lemma other_columns t b ops r i : t_version t = None -> ~ In i (map sf_idx (t_sums t)) -> merge_ops t b ops = Some r -> r i = b i.
Proof.
  intros Hv Hi. revert b. induction ops as [|o ops IH]; intros b; cbn [merge_ops]; [intros E; injection E as <-; reflexivity|].
  unfold merge_step. rewrite Hv. intros E. rewrite (IH _ E). apply add_sums_other. exact Hi.
Qed.

(* ---- rollup ---- *)

Lemma find_sum_in fs f : NoDup (map sf_idx fs) -> In f fs -> find_sum fs (sf_idx f) = Some f.
Proof.
  induction fs as [|g fs IH]; intros Hd Hf; [destruct Hf|]. inversion Hd as [|? ? Hn Hd']; subst. cbn [find_sum].
  destruct Hf as [->|Hf]; [rewrite Z.eqb_refl; reflexivity|].
  destruct (Z.eqb_spec (sf_idx g) (sf_idx f)) as [E|_]; [|apply IH; assumption].
  exfalso. apply Hn. rewrite E. apply in_map. exact Hf.
Qed.

Lemma total_perm a b : Permutation a b -> total a = total b.
Proof. induction 1; rewrite ?total_cons; try reflexivity; lia. Qed.

Lemma total_app a b : total (a ++ b) = total a + total b.
Proof. induction a as [|x a IH]; [reflexivity|]. cbn [app]. rewrite !total_cons, IH. lia. Qed.

Definition delta_of (t : table) (e : event) (d : row) : Prop :=
  match e with Ins r => rollup_delta t false r = Some d | Del r => rollup_delta t true r = Some d end.

Lemma delta_col t f e d : table_ok t -> In f (t_sums t) -> delta_of t e d ->
  exists v q, d (sf_idx f) = Some v /\
    v = (match e with Ins r => val (r (sf_idx f)) | Del r => - val (r (sf_idx f)) end) + q * modulus (sf_kind f).
Proof.
  intros [Hd _] Hf He. unfold delta_of, rollup_delta in He. destruct e as [r|r]; cbn [andb] in He.
  - injection He as <-. rewrite find_sum_in by assumption. eexists; exists 0. split; [reflexivity|]. unfold val. lia.
  - destruct (existsb _ _); [discriminate|]. injection He as <-. rewrite find_sum_in by assumption. cbv zeta.
    destruct (wrap_cong (sf_kind f) (- match r (sf_idx f) with Some x => x | None => 0 end)) as [q E].
    eexists; exists q. split; [reflexivity|]. rewrite E. unfold val. lia.
Qed.

Lemma present_total t f h l : table_ok t -> In f (t_sums t) -> present h l -> forall ds, Forall2 (delta_of t) h ds ->
  exists q, total (map (fun d : row => d (sf_idx f)) ds) = total (map (fun r : row => r (sf_idx f)) l) + q * modulus (sf_kind f).
Proof.
  intros Ht Hf Hp. induction Hp as [|h l r Hp IH|h l l' r Hp IH Pm]; intros ds Hds.
  - inversion Hds; subst. exists 0. reflexivity.
  - apply Forall2_app_inv_l in Hds. destruct Hds as (d1 & d2 & A & B & ->). inversion B as [|? d ? ? Hd Hnil]; subst. inversion Hnil; subst.
    destruct (IH _ A) as [q E]. destruct (delta_col t f (Ins r) d Ht Hf Hd) as (v & q' & Ed & Ev).
    exists (q + q'). rewrite map_app, total_app, E. cbn [map]. rewrite !total_cons, Ed. cbn [val]. rewrite Ev. unfold total at 2. cbn [fold_right]. lia.
  - apply Forall2_app_inv_l in Hds. destruct Hds as (d1 & d2 & A & B & ->). inversion B as [|? d ? ? Hd Hnil]; subst. inversion Hnil; subst.
    destruct (IH _ A) as [q E]. destruct (delta_col t f (Del r) d Ht Hf Hd) as (v & q' & Ed & Ev).
    exists (q + q'). rewrite map_app, total_app, E. cbn [map]. rewrite total_cons, Ed. cbn [val]. rewrite Ev.
    apply (Permutation_map (fun r0 : row => r0 (sf_idx f))) in Pm. apply total_perm in Pm. rewrite Pm. cbn [map]. rewrite total_cons.
    unfold total at 2. cbn [fold_right]. lia.
Qed.

(* insert deltas carry values of their columns; used for the range of the first one *)
Lemma delta_row_ok t e d : table_ok t -> t_version t = None ->
  (match e with Ins r => row_ok t r | Del _ => True end) -> delta_of t e d -> row_ok t d.
Proof.
  intros [Hd _] Hv He Hdl. unfold row_ok. rewrite Hv. split; [|exact Logic.I]. intros f v Hf. unfold delta_of, rollup_delta in Hdl.
  destruct e as [r|r]; cbn [andb] in Hdl.
  - injection Hdl as <-. rewrite find_sum_in by assumption. intros E. injection E as <-.
    destruct (r (sf_idx f)) eqn:Er; [apply He; assumption|]. destruct (sf_kind f); cbn; lia.
  - destruct (existsb _ _); [discriminate|]. injection Hdl as <-. rewrite find_sum_in by assumption. intros E. injection E as <-. apply wrap_range.
Qed.
