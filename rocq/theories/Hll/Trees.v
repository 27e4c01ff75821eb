(** The sketches built by the SQL functions. *)
From Coq Require Import NArith ZArith List Bool Lia.
From Verif.Hll Require Import Spec Model Dense Sparse Ops Histo.
Import ListNotations.
Open Scope N_scope.

(** The hashes of the values counted by an expression. *)
Fixpoint hashes (e : expr) : list N :=
  match e with
  | Init hs => hs
  | Add e hs | Row e hs => hashes e ++ hs
  | Merge e1 e2 | Join e1 e2 => hashes e1 ++ hashes e2
  | Group => []
  | Stored e | Shown e => hashes e
  end.

(** Is the sketch the state or the result of an aggregate, never stored or merged? *)
Fixpoint aggregate (e : expr) : bool :=
  match e with
  | Init _ | Merge _ _ | Stored _ => false
  | Group => true
  | Add e _ | Row e _ | Shown e => aggregate e
  | Join e1 _ => aggregate e1
  end.

(** No HLL_MERGE has the result of an aggregate as its first argument; the target of
    a merge inside an aggregate is an aggregate, as it always is, or the other is not. *)
Fixpoint good (e : expr) : Prop :=
  match e with
  | Init _ | Group => True
  | Add e _ | Row e _ | Stored e | Shown e => good e
  | Merge e1 e2 => good e1 /\ good e2 /\ aggregate e1 = false
  | Join e1 e2 => good e1 /\ good e2 /\ (aggregate e1 = true \/ aggregate e2 = false)
  end.

Lemma best_nil i : best [] i 0.
Proof. split; [now left|]. intros h r []. Qed.

Lemma best_app a b i x y : best a i x -> best b i y -> best (a ++ b) i (N.max x y).
Proof.
  intros [A1 A2] [B1 B2]. split.
  - destruct (N.max_spec x y) as [[_ ->]|[_ ->]].
    + destruct B1 as [B1|(h & Hh & P & R)]; [now left|right]. exists h. split; [apply in_or_app; now right|auto].
    + destruct A1 as [A1|(h & Hh & P & R)]; [now left|right]. exists h. split; [apply in_or_app; now left|auto].
  - intros h r Hh P R. apply in_app_or in Hh. destruct Hh as [Hh|Hh].
    + specialize (A2 h r Hh P R). lia.
    + specialize (B2 h r Hh P R). lia.
Qed.

Lemma best_one x c i : rank_is x c -> best [x] i (if i =? place x then c else 0).
Proof.
  intros R. split.
  - destruct (N.eqb_spec i (place x)) as [->|NE]; [right|now left]. exists x. split; [now left|auto].
  - intros h r [<-|[]] P R'. rewrite <- P, N.eqb_refl. rewrite (rank_unique _ _ _ R R'). lia.
Qed.

Lemma best_unique a b i x y : (forall h, In h a <-> In h b) -> best a i x -> best b i y -> x = y.
Proof.
  intros E [A1 A2] [B1 B2]. apply N.le_antisymm.
  - destruct A1 as [->|(h & Hh & P & R)]; [lia|]. apply (B2 h x); auto. now apply E.
  - destruct B1 as [->|(h & Hh & P & R)]; [lia|]. apply (A2 h y); auto. now apply E.
Qed.

Section Est.
  Variable est : list N -> N.
  Hypothesis est_empty : est (16384 :: repeat 0 63) = 0.
  Hypothesis est_64 : forall l, est l < 2 ^ 64.

  Definition cache_ok (h : hll) : Prop := valid_cache h = true -> card h = est (histogram h).

  Lemma histogram_empty h : (forall i, reg h i = 0) -> histogram h = 16384 :: repeat 0 63.
  Proof.
    intros Z. unfold histogram.
    rewrite map_ext with (g := fun v => if 0 =? N.of_nat v then 16384 else 0).
    - reflexivity.
    - intros v. change (N.to_nat 16384) with (0 + N.to_nat 16384)%nat.
      rewrite (count_run _ _ 0) by (intros i _; apply Z). cbn [count_upto]. rewrite N2Nat.id. apply N.add_0_l.
  Qed.

  Lemma fresh_cache h h' : cache_ok h -> fresh h h' -> cache_ok h'.
  Proof. intros C [->|F]; [exact C|]. intros T. congruence. Qed.

  Definition inv (e : expr) (h : hll) : Prop :=
    valid h /\ (enc h = RAW <-> aggregate e = true) /\ cache_ok h /\
    forall i, i < REGS -> best (hashes e) i (reg h i).

  Lemma add_all_ok hs : forall e h e', valid h -> (enc h = RAW <-> aggregate e' = true) -> cache_ok h ->
    (forall i, i < REGS -> best e i (reg h i)) ->
    exists h', add_all h hs = Some h' /\ valid h' /\ (enc h' = RAW <-> aggregate e' = true) /\ cache_ok h' /\
      forall i, i < REGS -> best (e ++ hs) i (reg h' i).
  Proof.
    induction hs as [|x t IH]; intros e h e' V R C A; cbn [add_all].
    - exists h. rewrite app_nil_r. auto.
    - destruct (add_ok h x V) as (ret & h1 & c & -> & _ & RK & [V1 A1] & R1 & F1). cbn [snd].
      destruct (IH (e ++ [x]) h1 e' V1) as (h' & E & X).
      + rewrite <- R1. exact R.
      + eapply fresh_cache; eassumption.
      + intros i I. rewrite (A1 i I). pose proof (best_app _ _ _ _ _ (A i I) (best_one x c i RK)) as Q.
        destruct (N.eqb_spec i (place x)) as [->|]; [exact Q|]. rewrite N.max_0_r in Q. exact Q.
      + exists h'. split; [exact E|]. rewrite <- app_assoc in X. exact X.
  Qed.

  Lemma eval_ok e : good e -> exists h, eval est e = Some h /\ inv e h.
  Proof.
    induction e as [hs|e IH hs|e1 IH1 e2 IH2| |e IH hs|e1 IH1 e2 IH2|e IH|e IH]; intros G; cbn [eval].
    - destruct (add_all_ok hs [] sparse_init (Init [])) as (h & E & V & R & C & A).
      + apply init_ok.
      + cbn. split; discriminate.
      + intros _. rewrite histogram_empty by apply init_ok. symmetry. exact est_empty.
      + intros i I. rewrite (proj2 init_ok i). apply best_nil.
      + exists h. split; [exact E|]. split; [exact V|]. split; [exact R|]. split; [exact C|exact A].
    - destruct (IH G) as (h & -> & V & R & C & A).
      destruct (add_all_ok hs (hashes e) h e V R C A) as (h' & E & X). exists h'. split; [exact E|exact X].
    - destruct G as (G1 & G2 & G3). destruct (IH1 G1) as (h1 & -> & V1 & R1 & C1 & A1).
      destruct (IH2 G2) as (h2 & -> & V2 & R2 & C2 & A2).
      destruct (merge_ok h1 h2 V1 V2) as (h' & -> & [V' A'] & N' & C').
      { left. intros X. apply R1 in X. congruence. }
      exists h'. split; [reflexivity|]. split; [exact V'|]. split; [split; [contradiction|discriminate]|].
      split; [intros T; congruence|]. intros i I. rewrite (A' i I). apply best_app; auto.
    - exists row_init. split; [reflexivity|]. split; [apply row_ok|]. split; [cbn; tauto|]. split.
      + intros _. rewrite histogram_empty by apply row_ok. symmetry. exact est_empty.
      + intros i I. rewrite (proj2 row_ok i). apply best_nil.
    - destruct (IH G) as (h & -> & V & R & C & A).
      destruct (add_all_ok hs (hashes e) h e V R C A) as (h' & E & X). exists h'. split; [exact E|exact X].
    - destruct G as (G1 & G2 & G3). destruct (IH1 G1) as (h1 & -> & V1 & R1 & C1 & A1).
      destruct (IH2 G2) as (h2 & -> & V2 & R2 & C2 & A2).
      destruct (merge_agg_ok h1 h2 V1 V2) as (h' & -> & [V' A'] & N' & C').
      { destruct G3 as [G3|G3]; [left; now apply R1|right]. intros X. apply R2 in X. congruence. }
      exists h'. split; [reflexivity|]. split; [exact V'|]. split; [rewrite <- N'; exact R1|].
      split; [intros T; congruence|]. intros i I. rewrite (A' i I). apply best_app; auto.
    - destruct (IH G) as (h & -> & V & R & C & A).
      destruct (to_sparse_ok h V) as (h' & -> & V' & N' & E' & C'). exists h'. split; [reflexivity|].
      split; [exact V'|]. split; [split; [contradiction|discriminate]|]. split.
      + destruct C' as [->|[->|C']]; [exact C| |intros T; congruence].
        intros _. rewrite histogram_empty by apply init_ok. symmetry. exact est_empty.
      + intros i I. rewrite (E' i I). now apply A.
    - destruct (IH G) as (h & -> & V & R & C & A). unfold hll_estimate. rewrite (object_ok h V).
      destruct (valid_cache h) eqn:T.
      + exists h. split; [reflexivity|]. split; [exact V|]. auto.
      + rewrite (reghisto_ok h V). eexists. split; [reflexivity|]. cbn [snd]. split.
        * destruct V as (V1 & V2 & V3). split; [exact V1|]. split; [apply est_64|exact V3].
        * split; [exact R|]. split; [intros _; reflexivity|exact A].
  Qed.

  Lemma estimate_ok h : valid h -> cache_ok h -> exists h', hll_estimate est h = Some (est (histogram h), h').
  Proof.
    intros V C. unfold hll_estimate. rewrite (object_ok h V). destruct (valid_cache h) eqn:T.
    - exists h. now rewrite (C T).
    - rewrite (reghisto_ok h V). eexists. reflexivity.
  Qed.

  Lemma estimate_same e1 e2 : good e1 -> good e2 -> (forall x, In x (hashes e1) <-> In x (hashes e2)) ->
    exists n h1 h2 h1' h2', eval est e1 = Some h1 /\ eval est e2 = Some h2 /\
      hll_estimate est h1 = Some (n, h1') /\ hll_estimate est h2 = Some (n, h2').
  Proof.
    intros G1 G2 S. destruct (eval_ok e1 G1) as (h1 & E1 & V1 & _ & C1 & A1).
    destruct (eval_ok e2 G2) as (h2 & E2 & V2 & _ & C2 & A2).
    destruct (estimate_ok h1 V1 C1) as (h1' & F1). destruct (estimate_ok h2 V2 C2) as (h2' & F2).
    exists (est (histogram h1)), h1, h2, h1', h2'. split; [exact E1|]. split; [exact E2|]. split; [exact F1|].
    rewrite F2. f_equal. f_equal. f_equal. apply histogram_ext. intros i I. symmetry.
    eapply best_unique; [exact S|now apply A1|now apply A2].
  Qed.

  (** An aggregate as the first argument of HLL_MERGE. *)
  Lemma merge_dropped e1 e2 : good e1 -> good e2 -> aggregate e1 = true -> aggregate e2 = true ->
    exists h, eval est (Merge e1 e2) = Some h /\ forall i, i < REGS -> best (hashes e1) i (reg h i).
  Proof.
    intros G1 G2 R1 R2. destruct (eval_ok e1 G1) as (h1 & E1 & V1 & Q1 & C1 & A1).
    destruct (eval_ok e2 G2) as (h2 & E2 & V2 & Q2 & C2 & A2). cbn [eval]. rewrite E1, E2.
    rewrite merge_raw; [|exact V1|exact V2|now apply Q1|rewrite (proj2 Q2 R2); discriminate].
    eexists. split; [reflexivity|]. exact A1.
  Qed.
End Est.

(** A raw sketch merged into one that is not raw: past the end of the string. *)
Lemma raw_max_len l i v l' : raw_max l i v = Some l' -> len l' = len l.
Proof.
  unfold raw_max. destruct (rd l i); [|discriminate]. destruct (_ <? _); [|now injection 1 as <-].
  unfold wr. destruct (_ <? _); [injection 1 as <-; unfold len; now rewrite length_upd|].
  destruct (_ && _); [now injection 1 as <-|discriminate].
Qed.

Lemma merge_agg_ub h1 h2 : valid h1 -> valid h2 -> enc h1 <> RAW -> enc h2 = RAW -> hll_merge_agg h1 h2 = None.
Proof.
  intros V1 V2 N1 R2. unfold hll_merge_agg. rewrite (object_ok h1 V1), (object_ok h2 V2). cbn [negb orb].
  destruct (N.eqb_spec (enc h1) RAW); [contradiction|].
  destruct (to_dense_ok h1 V1) as (d & -> & Vd & Dd & _ & Rd). cbn [fst snd Z.ltb Z.compare].
  rewrite R2, Dd. cbn [N.eqb DENSE RAW negb].
  assert (L : len (body d) = 12288) by (apply len_eq; apply (dense_ok d Vd Dd)).
  assert (LOOP : forall n j l, len l = 12288 -> j <= 12289 -> 12289 < j + N.of_nat n ->
     loop n j (fun l i => v <- rd (body h2) i ;; raw_max l i v) l = None).
  { intros n0. induction n0 as [|k IH]; intros j l Ll J1 J2; [lia|]. cbn [loop].
    destruct (rd (body h2) j) as [v|]; [|reflexivity].
    destruct (N.eq_dec j 12289) as [->|NE].
    - unfold raw_max, rd. rewrite Ll. reflexivity.
    - destruct (raw_max l j v) as [l'|] eqn:E; [|reflexivity]. apply IH; [|lia|lia].
      rewrite (raw_max_len _ _ _ _ E). exact Ll. }
  unfold all_regs. rewrite LOOP; [reflexivity|exact L|lia|unfold REGS; lia].
Qed.
