(** What the operations do to the numbers of a sketch and to its cache. *)
From Coq Require Import NArith ZArith List Bool Lia.
From Verif.Hll Require Import Spec Model Dense Sparse.
Import ListNotations.
Open Scope N_scope.

Lemma card_invalidate c : c < 2 ^ 64 -> N.lor c (N.shiftl 1 63) < 2 ^ 64.
Proof.
  intros L. apply small_of_bits. intros m M. rewrite N.lor_spec, (testbit_small c 64 m) by assumption.
  rewrite N.shiftl_spec_high' by lia. apply (testbit_small 1 1); [reflexivity|lia].
Qed.

Lemma valid_invalidate h : valid h -> valid (invalidate h).
Proof. intros (B & C & E). split; [exact B|]. split; [now apply card_invalidate|exact E]. Qed.

Lemma reg_invalidate h i : reg (invalidate h) i = reg h i.
Proof. reflexivity. Qed.

Lemma cache_invalidate h : valid_cache (invalidate h) = false.
Proof.
  unfold valid_cache, invalidate. cbn [card]. rewrite N.lor_spec.
  replace (N.testbit (N.shiftl 1 63) 63) with true by reflexivity. now rewrite orb_true_r.
Qed.

Lemma dense_valid h l : valid h -> enc h = DENSE -> ok_dense l -> valid (with_body h l).
Proof. intros (B & C & E) D (B' & L). split; [exact B'|]. split; [exact C|]. left. split; [exact D|exact L]. Qed.

Lemma dense_ok h : valid h -> enc h = DENSE -> ok_dense (body h).
Proof.
  intros (B & C & E) D. split; [exact B|]. destruct E as [[_ L]|[[R _]|[R _]]]; [exact L| |];
    rewrite D in R; discriminate.
Qed.

Lemma raw_ok h : valid h -> enc h = RAW -> ok_raw (body h).
Proof.
  intros (B & C & E) D. split; [exact B|]. destruct E as [[R _]|[[_ L]|[R _]]]; [|exact L|];
    rewrite D in R; discriminate.
Qed.

Lemma raw_valid h l : valid h -> enc h = RAW -> ok_raw l -> valid (with_body h l).
Proof.
  intros (B & C & E) D (B' & L & F). split; [exact B'|]. split; [exact C|]. right; left.
  split; [exact D|]. split; [exact L|exact F].
Qed.

Lemma sparse_ok h : valid h -> enc h = SPARSE ->
  exists rs, wf (body h) rs /\ total rs = REGS /\ forall i, reg h i = rat rs i.
Proof.
  intros (B & C & E) D. destruct E as [[R _]|[[R _]|[_ T]]]; [rewrite D in R; discriminate ..|].
  destruct (wf_of_bytes _ _ (le_n _) B _ T) as [rs W]. exists rs. split; [exact W|].
  destruct (wf_facts _ _ W) as (_ & T' & A). rewrite T in T'. injection T' as T'.
  split; [symmetry; exact T'|]. intros i. unfold reg. rewrite D. cbn [N.eqb SPARSE DENSE RAW]. apply A.
Qed.

Lemma sparse_valid h l rs : valid h -> enc h = SPARSE -> wf l rs -> total rs = REGS ->
  valid (with_body h l) /\ forall i, reg (with_body h l) i = rat rs i.
Proof.
  intros (B & C & E) D W T. destruct (wf_facts _ _ W) as (B' & T' & A). split.
  - split; [exact B'|]. split; [exact C|]. right; right. split; [exact D|]. rewrite T in T'. exact T'.
  - intros i. unfold reg, with_body. cbn [enc body]. rewrite D. apply A.
Qed.

Lemma reg_dense h i : enc h = DENSE -> reg h i = dense_at (body h) i.
Proof. intros D. unfold reg. rewrite D. reflexivity. Qed.
Lemma reg_raw h i : enc h = RAW -> reg h i = raw_at (body h) i.
Proof. intros D. unfold reg. rewrite D. reflexivity. Qed.

Lemma enc_cases h : valid h -> enc h = DENSE \/ enc h = RAW \/ enc h = SPARSE.
Proof. intros (_ & _ & [[D _]|[[D _]|[D _]]]); auto. Qed.

Lemma rat_small rs l : wf l rs -> forall i, rat rs i < 64.
Proof.
  induction 1 as [|b t rs B W IH|b c t rs B C W IH|b t rs B W IH]; intros i; cbn [rat fst snd].
  - lia.
  - destruct (_ <? _); [lia|apply IH].
  - destruct (_ <? _); [lia|apply IH].
  - destruct (val_ranges b B) as [R _]. destruct (_ <? _); [|apply IH].
    set (d := (b - 128) / 4 + 1) in *. clearbody d. lia.
Qed.

Lemma reg_small h i : valid h -> reg h i < 64.
Proof.
  intros V. destruct (enc_cases h V) as [D|[D|D]].
  - rewrite (reg_dense _ _ D). apply dense_at_small.
  - rewrite (reg_raw _ _ D). apply raw_small. now apply raw_ok.
  - destruct (sparse_ok h V D) as (rs & W & _ & A). rewrite A. eapply rat_small; exact W.
Qed.

Lemma object_ok h : valid h -> is_hll_object h = true.
Proof.
  intros (B & C & [[D L]|[[D _]|[D _]]]); unfold is_hll_object; rewrite D; try reflexivity.
  cbn [N.ltb N.compare N.eqb DENSE RAW andb negb]. apply len_eq in L. unfold DENSE_BYTES. rewrite L. reflexivity.
Qed.

Definition regs_eq (h h' : hll) : Prop := forall i, i < REGS -> reg h' i = reg h i.

(** * To the dense encoding *)
Lemma to_dense_ok h : valid h -> exists h', sparse_to_dense h = Some (0%Z, h') /\
  valid h' /\ enc h' = DENSE /\ card h' = card h /\ regs_eq h h'.
Proof.
  intros V. unfold sparse_to_dense. destruct (enc_cases h V) as [D|[D|D]]; rewrite D;
    cbn [N.eqb DENSE RAW SPARSE Pos.eqb].
  - exists h. repeat split; auto; apply V.
  - pose proof (raw_ok h V D) as R.
    destruct (all_max ok_dense dense_at
       (fun b j => v <- rd (body h) j ;; if v =? 0 then Some b else dense_max b j v)
       (raw_at (body h))) with (a := repeat 0 (N.to_nat DENSE_BYTES)) as (b & -> & O & A).
    { intros a j O J. rewrite rd_raw by assumption.
      destruct (N.eqb_spec (raw_at (body h) j) 0) as [Z|Z].
      - exists a. split; [reflexivity|]. split; [exact O|]. intros i I. rewrite Z.
        destruct (N.eqb_spec i j) as [->|]; [lia|reflexivity].
      - unfold dense_max. destruct (dense_max_ok a j (raw_at (body h) j) O J (raw_small _ _ R))
          as (a' & ret & -> & O' & _ & _ & A'). exists a'. cbn [snd]. auto. }
    { apply zeros_dense. }
    eexists. split; [reflexivity|]. split.
    + split; [apply O|]. split; [apply V|]. left. split; [reflexivity|apply O].
    + split; [reflexivity|]. split; [reflexivity|]. intros i I. rewrite (reg_raw h _ D).
      unfold reg. cbn [enc body N.eqb DENSE]. rewrite (A i I), zeros_at. lia.
  - destruct (sparse_ok h V D) as (rs & W & T & R).
    destruct (walk_ok ok_dense dense_at dense_put (fun _ v => v)) with (2 := W) (i := 0)
       (a := repeat 0 (N.to_nat DENSE_BYTES)) as (b & E & O & A).
    { intros a j v O J Vv. destruct (dense_put_ok a j v O J Vv) as (a' & Ea & O' & A'). exists a'. auto. }
    { apply zeros_dense. }
    { rewrite T. lia. }
    rewrite E. cbn [fst snd]. rewrite T. cbn [N.add]. rewrite N.eqb_refl.
    eexists. split; [reflexivity|]. split.
    + split; [apply O|]. split; [apply V|]. left. split; [reflexivity|apply O].
    + split; [reflexivity|]. split; [reflexivity|]. intros i I. rewrite R.
      unfold reg. cbn [enc body N.eqb DENSE]. rewrite (A i I), zeros_at.
      destruct (N.ltb_spec i 0); [lia|]. rewrite N.sub_0_r.
      destruct (N.eqb_spec (rat rs i) 0) as [Z|Z]; auto.
Qed.

(** * One number *)
Definition sets (h : hll) (i v : N) (h' : hll) : Prop :=
  valid h' /\ (forall j, j < REGS -> reg h' j = if j =? i then N.max (reg h i) v else reg h j).

Definition fresh (h h' : hll) : Prop := h' = h \/ valid_cache h' = false.

Lemma promote_ok h i c : valid h -> i < REGS -> c < 64 -> reg h i < c ->
  exists h', set_promote h i c = Some (1%Z, h') /\ sets h i c h' /\ enc h' = DENSE /\ valid_cache h' = false.
Proof.
  intros V I C G. unfold set_promote. destruct (to_dense_ok h V) as (d & -> & Vd & Dd & Cd & Rd).
  cbn [fst snd Z.ltb Z.compare].
  destruct (dense_max_ok (body d) i c (dense_ok d Vd Dd) I C) as (l & ret & -> & O & R1 & _ & A).
  assert (Gd : dense_at (body d) i < c) by (rewrite <- (reg_dense d i Dd), (Rd i I); exact G).
  rewrite (R1 Gd). cbn [fst snd Z.eqb Pos.eqb negb].
  eexists. split; [reflexivity|]. split; [|split; [exact Dd|apply cache_invalidate]].
  split; [apply valid_invalidate; now apply dense_valid|].
  intros j J. rewrite reg_invalidate, reg_dense by exact Dd. cbn [body with_body].
  rewrite (A j J). rewrite <- !(reg_dense d _ Dd), (Rd i I), (Rd j J). reflexivity.
Qed.

Lemma skipn_one (b : N) t : skipn 1 (b :: t) = t.
Proof. reflexivity. Qed.

Lemma sparse_set_ok h i c : valid h -> enc h = SPARSE -> i < REGS -> 1 <= c -> c < 64 ->
  exists ret h', sparse_set h i c = Some (ret, h') /\ (ret = 0%Z \/ ret = 1%Z) /\
    sets h i c h' /\ enc h' <> RAW /\ fresh h h'.
Proof.
  intros V D I C1 C2. unfold sparse_set. destruct (sparse_ok h V D) as (rs & W & T & R).
  destruct (N.ltb_spec VAL_MAX_VALUE c) as [G|G]; unfold VAL_MAX_VALUE in G.
  { assert (reg h i < c) as L.
    { assert (S : forall l rs, wf l rs -> forall j, rat rs j <= 32).
      { clear. induction 1 as [|b t rs B W IH|b c t rs B C W IH|b t rs B W IH]; intros j; cbn [rat fst snd].
        - lia.
        - destruct (_ <? _); [lia|apply IH].
        - destruct (_ <? _); [lia|apply IH].
        - destruct (val_ranges b B) as [R _]. destruct (_ <? _); [|apply IH].
          set (d := (b - 128) / 4 + 1) in *. clearbody d. lia. }
      rewrite R. specialize (S _ _ W i). lia. }
    destruct (promote_ok h i c V I C2 L) as (h' & E & Q & En & Fc).
    exists 1%Z, h'. split; [exact E|]. split; [auto|]. split; [exact Q|]. split; [rewrite En; discriminate|now right]. }
  destruct (scan_ok _ _ W i 0 [] [] [] [] wf_nil wf_nil eq_refl)
    as (front & prev & first & span & l & r0 & r1 & v & rs' & -> & W0 & W1 & W2 & EL & ER & EF & LO & HI);
    [lia|rewrite T; lia|].
  cbn [app] in EL, ER.
  assert (SPAN : span <= 16384).
  { rewrite ER in T. rewrite !total_app in T. cbn [total snd] in T. unfold REGS in T. lia. }
  assert (OLD : reg h i = v).
  { rewrite R, ER, app_assoc, rat_app, total_app. cbn [rat fst snd].
    destruct (N.ltb_spec i (total r0 + total r1)); [lia|].
    destruct (N.ltb_spec (i - (total r0 + total r1)) span); [reflexivity|lia]. }
  (* what replaces the run found *)
  assert (DONE : forall seq rq tl, wf seq rq -> wf tl rs' -> total rq = span -> v <= c ->
     (forall k, k < span -> rat rq k = if k =? i - first then c else v) ->
     exists ret h', Some (1%Z, invalidate (with_body h (front ++ set_update 5 (prev ++ seq ++ tl)))) = Some (ret, h') /\
       (ret = 0%Z \/ ret = 1%Z) /\ sets h i c h' /\ enc h' <> RAW /\ fresh h h').
  { intros seq rq tl Wq Wt Tq VC Aq. eexists _, _. split; [reflexivity|]. split; [auto|].
    split; [|split; [cbn [enc invalidate with_body]; rewrite D; discriminate|right; apply cache_invalidate]].
    destruct (set_update_ok 5 (prev ++ seq ++ tl) (r1 ++ rq ++ rs')) as (ru & Wu & [Tu Au]).
    { apply wf_app; [exact W1|]. now apply wf_app. }
    destruct (rat_mid (r0 ++ r1) v span rs' rq i c) as [TM AM];
      [rewrite total_app; lia|rewrite total_app; lia|exact Tq
      |rewrite total_app, <- EF; exact Aq|].
    assert (SM : same (r0 ++ r1 ++ rq ++ rs') (r0 ++ ru)).
    { apply same_app. split; [exact Tu|exact Au]. }
    destruct SM as [TS AS]. rewrite <- !app_assoc in TM. 
    destruct (sparse_valid h (front ++ set_update 5 (prev ++ seq ++ tl)) (r0 ++ ru) V D) as [V' R'].
    { now apply wf_app. }
    { rewrite TS, TM. rewrite <- ER. exact T. }
    split; [now apply valid_invalidate|]. intros j J. rewrite reg_invalidate, R', AS.
    specialize (AM j). rewrite <- !app_assoc in AM. rewrite AM, <- ER, <- R.
    destruct (j =? i); [lia|reflexivity]. }
  assert (ONE : span = 1 -> forall k, k < span -> rat [(c, 1)] k = if k =? i - first then c else v).
  { intros S1 k K. cbn [rat fst snd]. destruct (N.ltb_spec k 1); [|lia].
    destruct (N.eqb_spec k (i - first)); [reflexivity|lia]. }
  assert (REPL : forall oldlen seq rq, wf seq rq -> wf (skipn oldlen l) rs' -> total rq = span -> v < c ->
     (forall k, k < span -> rat rq k = if k =? i - first then c else v) ->
     exists ret h',
      (if (N.of_nat oldlen <? len seq) &&
          (sparse_max_bytes <? HDR_SIZE + len (body h) + (len seq - N.of_nat oldlen))
       then set_promote h i c
       else Some (1%Z, invalidate (with_body h (front ++ set_update 5 (prev ++ seq ++ skipn oldlen l))))) = Some (ret, h') /\
       (ret = 0%Z \/ ret = 1%Z) /\ sets h i c h' /\ enc h' <> RAW /\ fresh h h').
  { intros oldlen seq rq Wq Wt Tq VC Aq. destruct (_ && _).
    - destruct (promote_ok h i c V I C2) as (h' & E & Q & En & Fc); [lia|].
      exists 1%Z, h'. split; [exact E|]. split; [auto|]. split; [exact Q|].
      split; [rewrite En; discriminate|now right].
    - apply (DONE seq rq); auto. lia. }
  inversion W2; subst.
  - (* zeroes *)
    match goal with Hb : ?b < 64 |- _ => destruct (zero_byte b Hb) as (Iz & _ & _ & ZL); rewrite Iz, ZL end.
    destruct (N.eqb_spec (b + 1) 1) as [S1|S1].
    + apply (DONE [val_set c 1] [(c, 1)]); [apply wf_valset; lia|assumption|cbn [total snd]; lia|lia|now apply ONE].
    + destruct (split_zero_ok (total r0 + total r1) (b + 1) i c LO HI SPAN ltac:(lia)) as (rq & Wq & Tq & Aq).
      apply (REPL 1%nat _ rq Wq); [assumption|exact Tq|lia|].
      match goal with E : 0 = reg h i |- _ => rewrite <- E end. exact Aq.
  - match goal with Hb : 64 <= ?b < 128, Hc : ?x < 256 |- _ => destruct (xzero_byte b x Hb Hc) as (Iz & Ix & _ & ZL); rewrite Iz, Ix end.
    destruct (split_zero_ok (total r0 + total r1) _ i c LO HI SPAN ltac:(lia)) as (rq & Wq & Tq & Aq).
    apply (REPL 2%nat _ rq Wq); [assumption|exact Tq|lia|].
    match goal with E : 0 = reg h i |- _ => rewrite <- E end. exact Aq.
  - match goal with Hb : 128 <= ?b < 256 |- _ =>
      destruct (val_byte b Hb) as (Iz & Ix & _ & VV & VL); destruct (val_ranges b Hb) as [RV RL];
      rewrite Iz, Ix, VV, VL; rewrite <- VV, <- VL in *; clear VV VL end.
    destruct (N.leb_spec c (val_value b)) as [CL|CL].
    + exists 0%Z, h. split; [reflexivity|]. split; [auto|]. split; [|split; [rewrite D; discriminate|now left]].
      split; [exact V|]. intros j J. destruct (N.eqb_spec j i) as [->|]; [lia|reflexivity].
    + destruct (N.eqb_spec (val_len b) 1) as [S1|S1].
      * apply (DONE [val_set c 1] [(c, 1)]); [apply wf_valset; lia|assumption|cbn [total snd]; lia|lia|now apply ONE].
      * destruct (split_val_ok (total r0 + total r1) (val_len b) i c (val_value b) LO HI ltac:(lia) ltac:(lia) ltac:(lia)) as (rq & Wq & Tq & Aq).
        apply (REPL 1%nat _ rq Wq); [assumption|exact Tq|lia|].
        match goal with E : val_value b = reg h i |- _ => rewrite <- E end. exact Aq.
Qed.

(** * The place and the rank of a hash *)
Lemma pat_loop_ok n : forall h k,
  (exists m, k <= m /\ m < k + N.of_nat n /\ N.testbit h m = true) ->
  exists m, pat_loop n h (2 ^ k) (k + 1) = m + 1 /\ k <= m /\ N.testbit h m = true /\
    forall j, k <= j -> j < m -> N.testbit h j = false.
Proof.
  induction n as [|n IH]; intros h k (m & L & G & B); [lia|]. cbn [pat_loop].
  assert (Z : (N.land h (2 ^ k) =? 0) = negb (N.testbit h k)).
  { destruct (N.testbit h k) eqn:Tk.
    - apply N.eqb_neq. intros E. assert (X : N.testbit (N.land h (2 ^ k)) k = true)
        by (rewrite N.land_spec, Tk, N.pow2_bits_true; reflexivity).
      rewrite E, N.bits_0 in X. discriminate.
    - apply N.eqb_eq. apply N.bits_inj. intros j. rewrite N.land_spec, N.bits_0.
      destruct (N.eq_dec k j) as [<-|NE]; [rewrite Tk; reflexivity|].
      rewrite N.pow2_bits_false by exact NE. apply andb_false_r. }
  rewrite Z. destruct (N.testbit h k) eqn:Tk; cbn [negb].
  - exists k. repeat split; auto; [lia|]. intros j J1 J2. lia.
  - assert (m <> k) by congruence. rewrite N.shiftl_mul_pow2, <- N.pow_add_r.
    destruct (IH h (k + 1)) as (m' & E & L' & B' & F').
    { exists m. split; [lia|]. split; [lia|exact B]. }
    exists m'. split; [exact E|]. split; [lia|]. split; [exact B'|]. intros j J1 J2.
    destruct (N.eq_dec j k) as [->|]; [exact Tk|]. apply F'; lia.
Qed.

Lemma pat_len_ok hash : exists c, hll_pat_len hash = (place hash, c) /\ rank_is hash c.
Proof.
  unfold hll_pat_len, REGS, HLL_P, HLL_Q.
  set (h := N.lor (N.shiftr hash 14) (N.shiftl 1 50)).
  assert (HB : forall j, N.testbit h j = N.testbit hash (14 + j) || (j =? 50)).
  { intros j. unfold h. rewrite N.lor_spec, N.shiftr_spec', N.add_comm. f_equal.
    rewrite N.shiftl_1_l. apply N.pow2_bits_eqb || (rewrite N.pow2_bits_eqb; apply N.eqb_sym). }
  destruct (pat_loop_ok 51 h 0) as (m & E & _ & B & F).
  { exists 50. split; [lia|]. split; [lia|]. rewrite HB. apply orb_true_r. }
  change (2 ^ 0) with 1 in E. cbn [N.add] in E. rewrite E. exists (m + 1). split.
  { f_equal. unfold place. change (16384 - 1) with (N.ones 14). apply N.land_ones. }
  assert (M : m <= 50).
  { destruct (N.le_gt_cases m 50) as [|G]; [assumption|]. specialize (F 50 ltac:(lia) G).
    rewrite HB, orb_true_r in F. discriminate. }
  split; [lia|]. replace (m + 1 - 1) with m by lia. split.
  - intros j J. specialize (F j ltac:(lia) J). rewrite HB in F. apply orb_false_elim in F. exact (proj1 F).
  - rewrite HB in B. apply orb_true_elim in B. destruct B as [B|B]; [right; exact B|left].
    apply N.eqb_eq in B. lia.
Qed.

Lemma rank_unique hash r r' : rank_is hash r -> rank_is hash r' -> r = r'.
Proof.
  intros (L & F & E) (L' & F' & E'). destruct (N.lt_trichotomy r r') as [C|[C|C]]; [|exact C|].
  - destruct E as [E|E]; [lia|]. rewrite (F' (r - 1)) in E by lia. discriminate.
  - destruct E' as [E'|E']; [lia|]. rewrite (F (r' - 1)) in E' by lia. discriminate.
Qed.

Lemma place_small hash : place hash < REGS.
Proof. unfold place, REGS. change 16384 with (2 ^ 14). apply N.mod_lt. discriminate. Qed.

Lemma add_ok h hash : valid h -> exists ret h' c, hll_add h hash = Some (ret, h') /\
  (ret = 0%Z \/ ret = 1%Z) /\ rank_is hash c /\ sets h (place hash) c h' /\
  (enc h = RAW <-> enc h' = RAW) /\ fresh h h'.
Proof.
  intros V. unfold hll_add. rewrite (object_ok h V).
  destruct (pat_len_ok hash) as (c & -> & RK). pose proof (place_small hash) as P.
  set (i := place hash) in *. clearbody i. pose proof RK as ((C1 & C2) & _).
  destruct (enc_cases h V) as [D|[D|D]]; rewrite D; cbn [N.eqb DENSE RAW SPARSE Pos.eqb].
  - destruct (dense_max_ok (body h) i c (dense_ok h V D) P ltac:(lia)) as (l & ret & -> & O & R1 & R0 & A).
    cbn [fst snd]. destruct (N.lt_ge_cases (dense_at (body h) i) c) as [G|G].
    + rewrite (R1 G). cbn [Z.eqb Pos.eqb]. exists 1%Z. eexists _, c. split; [reflexivity|]. split; [auto|].
      split; [exact RK|]. split.
      * split; [apply valid_invalidate; now apply dense_valid|]. intros j J.
        rewrite reg_invalidate, reg_dense by exact D. cbn [body with_body]. rewrite (A j J), <- !(reg_dense h _ D).
        reflexivity.
      * split; [split; cbn [enc invalidate with_body]; rewrite D; discriminate|right; apply cache_invalidate].
    + destruct (R0 G) as [-> ->]. cbn [Z.eqb]. exists 0%Z, h, c.
      split; [destruct h; reflexivity|]. split; [auto|]. split; [exact RK|]. split.
      * split; [exact V|]. intros j J. rewrite !(reg_dense h _ D). apply (A j J).
      * split; [rewrite D; split; discriminate|now left].
  - unfold row_add. pose proof (raw_ok h V D) as R. rewrite rd_raw by assumption.
    destruct (N.ltb_spec (raw_at (body h) i) c) as [G|G].
    + pose proof R as (_ & L & _). apply len_eq in L. rewrite wr_ok by lia.
      exists 0%Z. eexists _, c. split; [reflexivity|]. split; [auto|]. split; [exact RK|]. split.
      * split; [apply valid_invalidate; apply raw_valid; [exact V|exact D|apply raw_upd_ok; [exact R|lia]]|].
        intros j J. rewrite reg_invalidate, reg_raw by exact D. cbn [body with_body].
        rewrite raw_upd by assumption. rewrite !(reg_raw h _ D). destruct (j =? i); [lia|reflexivity].
      * split; [cbn [enc invalidate with_body]; rewrite D; tauto|right; apply cache_invalidate].
    + exists 0%Z, h, c. split; [reflexivity|]. split; [auto|]. split; [exact RK|]. split.
      * split; [exact V|]. intros j J. rewrite !(reg_raw h _ D).
        destruct (N.eqb_spec j i) as [->|]; [lia|reflexivity].
      * split; [rewrite D; tauto|now left].
  - destruct (sparse_set_ok h i c V D P C1 ltac:(lia)) as (ret & h' & E & RR & Q & NR & FR).
    exists ret, h', c. split; [exact E|]. split; [exact RR|]. split; [exact RK|]. split; [exact Q|].
    split; [split; [discriminate|contradiction]|exact FR].
Qed.

(** * Two sketches *)
Definition unites (h1 h2 h' : hll) : Prop :=
  valid h' /\ forall i, i < REGS -> reg h' i = N.max (reg h1 i) (reg h2 i).

Lemma walk_max {A} (ok : A -> Prop) at_ set :
  (forall a j v, ok a -> j < REGS -> v < 64 ->
    exists a', set a j v = Some a' /\ ok a' /\
      forall i, i < REGS -> at_ a' i = if i =? j then N.max (at_ a j) v else at_ a i) ->
  forall h a, valid h -> enc h = SPARSE -> ok a ->
  exists a', walk set (body h) 0 a = Some (a', REGS) /\ ok a' /\
    forall i, i < REGS -> at_ a' i = N.max (at_ a i) (reg h i).
Proof.
  intros ST h a V D O. destruct (sparse_ok h V D) as (rs & W & T & R).
  destruct (walk_ok ok at_ set N.max ST _ _ W 0 a O) as (a' & E & O' & A'); [rewrite T; lia|].
  exists a'. split; [rewrite E, T; reflexivity|]. split; [exact O'|]. intros i I. rewrite (A' i I), R.
  destruct (N.ltb_spec i 0); [lia|]. rewrite N.sub_0_r. destruct (N.eqb_spec (rat rs i) 0); lia.
Qed.

Lemma dense_step a j v : ok_dense a -> j < REGS -> v < 64 ->
  exists a', dense_max a j v = Some a' /\ ok_dense a' /\
    forall i, i < REGS -> dense_at a' i = if i =? j then N.max (dense_at a j) v else dense_at a i.
Proof.
  intros O J V. destruct (dense_max_ok a j v O J V) as (a' & r & E & O' & _ & _ & A'). exists a'.
  unfold dense_max. rewrite E. auto.
Qed.

Lemma merge_max_ok m h : ok_raw m -> valid h ->
  exists m', merge_max m h = Some (0%Z, m') /\ ok_raw m' /\
    forall i, i < REGS -> raw_at m' i = N.max (raw_at m i) (reg h i).
Proof.
  intros M V. unfold merge_max. destruct (enc_cases h V) as [D|[D|D]]; rewrite D;
    cbn [N.eqb DENSE RAW SPARSE Pos.eqb].
  - destruct (all_max ok_raw raw_at (fun l i => v <- dense_get (body h) i ;; raw_max l i v)
       (dense_at (body h))) with (a := m) as (m' & -> & O & A).
    + intros a j O J. rewrite dense_get_ok by (assumption || now apply dense_ok).
      apply raw_max_ok; [exact O|exact J|apply dense_at_small].
    + exact M.
    + exists m'. split; [reflexivity|]. split; [exact O|]. intros i I. rewrite (reg_dense h _ D). now apply A.
  - destruct (all_max ok_raw raw_at (fun l i => v <- rd (body h) i ;; raw_max l i v)
       (raw_at (body h))) with (a := m) as (m' & -> & O & A).
    + intros a j O J. rewrite rd_raw by (assumption || now apply raw_ok).
      apply raw_max_ok; [exact O|exact J|apply raw_small; now apply raw_ok].
    + exact M.
    + exists m'. split; [reflexivity|]. split; [exact O|]. intros i I. rewrite (reg_raw h _ D). now apply A.
  - destruct (walk_max ok_raw raw_at raw_max raw_max_ok h m V D M) as (m' & -> & O & A).
    cbn [fst snd]. rewrite N.eqb_refl. exists m'. auto.
Qed.

Lemma set_switch_ok s j v : valid s -> enc s <> RAW -> j < REGS -> 1 <= v -> v < 64 ->
  exists s', set_switch s j v = Some s' /\ sets s j v s' /\ enc s' <> RAW /\
    (enc s = DENSE -> card s' = card s) /\ (enc s = SPARSE -> fresh s s').
Proof.
  intros V NR J V1 V2. unfold set_switch. destruct (enc_cases s V) as [D|[D|D]]; [|contradiction|]; rewrite D;
    cbn [N.eqb DENSE RAW SPARSE Pos.eqb].
  - destruct (dense_max_ok (body s) j v (dense_ok s V D) J V2) as (l & ret & -> & O & _ & _ & A).
    cbn [snd]. eexists. split; [reflexivity|]. split; [|split; [cbn [enc with_body]; rewrite D; discriminate|]].
    + split; [now apply dense_valid|]. intros i I. rewrite reg_dense by exact D. cbn [body with_body].
      rewrite (A i I), <- !(reg_dense s _ D). reflexivity.
    + split; [reflexivity|discriminate].
  - destruct (sparse_set_ok s j v V D J V1 V2) as (ret & s' & -> & _ & Q & N1 & F1). exists s'. cbn [snd].
    split; [reflexivity|]. split; [exact Q|]. split; [exact N1|]. split; [discriminate|intros _; exact F1].
Qed.

Lemma merge_ok h1 h2 : valid h1 -> valid h2 -> (enc h1 <> RAW \/ enc h2 = DENSE) ->
  exists h', hll_merge h1 h2 = Some (0%Z, h') /\ unites h1 h2 h' /\ enc h' <> RAW /\ valid_cache h' = false.
Proof.
  intros V1 V2 G. unfold hll_merge. rewrite (object_ok h1 V1), (object_ok h2 V2). cbn [negb orb].
  destruct (merge_max_ok _ h1 zeros_raw V1) as (m1 & -> & O1 & A1). cbn [fst snd Z.ltb Z.compare].
  destruct (merge_max_ok m1 h2 O1 V2) as (m2 & -> & O2 & A2). cbn [fst snd Z.ltb Z.compare].
  set (st := if (enc h1 =? DENSE) || (enc h2 =? DENSE) then sparse_to_dense h1 else Some (0%Z, h1)).
  assert (ST : exists s, st = Some (0%Z, s) /\ valid s /\ enc s <> RAW /\ regs_eq h1 s).
  { unfold st. destruct (N.eqb_spec (enc h1) DENSE) as [E1|E1]; cbn [orb].
    - destruct (to_dense_ok h1 V1) as (d & E & Vd & Dd & _ & Rd). exists d. rewrite Dd. split; [exact E|]. split; [exact Vd|]. split; [discriminate|exact Rd].
    - destruct (N.eqb_spec (enc h2) DENSE) as [E2|E2].
      + destruct (to_dense_ok h1 V1) as (d & E & Vd & Dd & _ & Rd). exists d. rewrite Dd. split; [exact E|]. split; [exact Vd|]. split; [discriminate|exact Rd].
      + exists h1. split; [reflexivity|]. split; [exact V1|]. split; [tauto|]. intros i I. reflexivity. }
  clearbody st. destruct ST as (s & -> & Vs & Ns & Rs). cbn [fst snd Z.ltb Z.compare].
  destruct (all_max (fun s => valid s /\ enc s <> RAW) reg
     (fun s j => v <- rd m2 j ;; if v =? 0 then Some s else set_switch s j v) (raw_at m2))
     with (a := s) as (h & -> & [Vh Nh] & A).
  - intros a j [Va Na] J. rewrite rd_raw by assumption.
    destruct (N.eqb_spec (raw_at m2 j) 0) as [Z|Z].
    + exists a. split; [reflexivity|]. split; [auto|]. intros i I. rewrite Z.
      destruct (N.eqb_spec i j) as [->|]; [lia|reflexivity].
    + destruct (set_switch_ok a j (raw_at m2 j) Va Na J ltac:(lia) (raw_small _ _ O2)) as (s' & -> & [Q1 Q2] & N' & _).
      exists s'. auto.
  - auto.
  - eexists. split; [reflexivity|]. split; [|split; [exact Nh|apply cache_invalidate]].
    split; [now apply valid_invalidate|]. intros i I. rewrite reg_invalidate, (A i I), (Rs i I), (A2 i I), (A1 i I).
    rewrite zeros_raw_at. lia.
Qed.

(** Nothing is merged into a raw sketch, unless the other is dense. *)
Lemma merge_raw h1 h2 : valid h1 -> valid h2 -> enc h1 = RAW -> enc h2 <> DENSE ->
  hll_merge h1 h2 = Some (0%Z, invalidate h1).
Proof.
  intros V1 V2 R N2. unfold hll_merge. rewrite (object_ok h1 V1), (object_ok h2 V2). cbn [negb orb].
  destruct (merge_max_ok _ h1 zeros_raw V1) as (m1 & -> & O1 & A1). cbn [fst snd Z.ltb Z.compare].
  destruct (merge_max_ok m1 h2 O1 V2) as (m2 & -> & O2 & A2). cbn [fst snd Z.ltb Z.compare].
  rewrite R. destruct (N.eqb_spec (enc h2) DENSE); [contradiction|]. cbn [N.eqb RAW DENSE orb fst snd Z.ltb Z.compare].
  assert (L : forall n j, j + N.of_nat n <= REGS ->
     loop n j (fun s j => v <- rd m2 j ;; if v =? 0 then Some s else set_switch s j v) h1 = Some h1).
  { intros q. induction q as [|k IH]; intros j J; cbn [loop]; [reflexivity|]. rewrite rd_raw by (assumption || lia).
    unfold set_switch at 1. rewrite R. cbn [N.eqb RAW DENSE SPARSE Pos.eqb].
    replace (if raw_at m2 j =? 0 then Some h1 else Some h1) with (Some h1) by now destruct (raw_at m2 j =? 0).
    apply IH. lia. }
  unfold all_regs. rewrite L; [reflexivity|]. rewrite N2Nat.id. lia.
Qed.

Lemma merge_agg_ok h1 h2 : valid h1 -> valid h2 -> (enc h1 = RAW \/ enc h2 <> RAW) ->
  exists h', hll_merge_agg h1 h2 = Some (0%Z, h') /\ unites h1 h2 h' /\
    (enc h1 = RAW <-> enc h' = RAW) /\ valid_cache h' = false.
Proof.
  intros V1 V2 G. unfold hll_merge_agg. rewrite (object_ok h1 V1), (object_ok h2 V2). cbn [negb orb].
  destruct (N.eqb_spec (enc h1) RAW) as [R1|R1].
  - cbn [fst snd Z.ltb Z.compare]. rewrite (proj2 (N.eqb_eq _ _) R1). cbn [negb].
    pose proof (raw_ok h1 V1 R1) as O1.
    assert (FIN : forall l, ok_raw l -> (forall i, i < REGS -> raw_at l i = N.max (raw_at (body h1) i) (reg h2 i)) ->
      exists h', Some (0%Z, invalidate (with_body h1 l)) = Some (0%Z, h') /\ unites h1 h2 h' /\
        (enc h1 = RAW <-> enc h' = RAW) /\ valid_cache h' = false).
    { intros l O A. eexists. split; [reflexivity|]. split; [|split; [cbn; tauto|apply cache_invalidate]].
      split; [apply valid_invalidate; now apply raw_valid|]. intros i I.
      rewrite reg_invalidate, reg_raw by exact R1. cbn [body with_body]. rewrite (A i I), (reg_raw h1 _ R1). reflexivity. }
    destruct (enc_cases h2 V2) as [D|[D|D]]; rewrite D; cbn [N.eqb DENSE RAW SPARSE Pos.eqb].
    + destruct (all_max ok_raw raw_at (fun l i => v <- dense_get (body h2) i ;; raw_max l i v)
         (dense_at (body h2))) with (a := body h1) as (l & -> & O & A); [|exact O1|].
      * intros a j O J. rewrite dense_get_ok by (assumption || now apply dense_ok).
        apply raw_max_ok; [exact O|exact J|apply dense_at_small].
      * apply FIN; [exact O|]. intros i I. rewrite (reg_dense h2 _ D). now apply A.
    + destruct (all_max ok_raw raw_at (fun l i => v <- rd (body h2) i ;; raw_max l i v)
         (raw_at (body h2))) with (a := body h1) as (l & -> & O & A); [|exact O1|].
      * intros a j O J. rewrite rd_raw by (assumption || now apply raw_ok).
        apply raw_max_ok; [exact O|exact J|apply raw_small; now apply raw_ok].
      * apply FIN; [exact O|]. intros i I. rewrite (reg_raw h2 _ D). now apply A.
    + destruct (walk_max ok_raw raw_at (fun l i v => raw_max l i v) raw_max_ok h2 (body h1) V2 D O1) as (l & -> & O & A).
      cbn [fst snd]. rewrite N.eqb_refl. now apply FIN.
  - destruct G as [G|G]; [contradiction|].
    destruct (to_dense_ok h1 V1) as (d & -> & Vd & Dd & _ & Rd). cbn [fst snd Z.ltb Z.compare].
    rewrite Dd. cbn [N.eqb DENSE RAW negb]. pose proof (dense_ok d Vd Dd) as Od.
    assert (FIN : forall l, ok_dense l -> (forall i, i < REGS -> dense_at l i = N.max (dense_at (body d) i) (reg h2 i)) ->
      exists h', Some (0%Z, invalidate (with_body d l)) = Some (0%Z, h') /\ unites h1 h2 h' /\
        (enc h1 = RAW <-> enc h' = RAW) /\ valid_cache h' = false).
    { intros l O A. eexists. split; [reflexivity|]. split; [|split; [|apply cache_invalidate]].
      - split; [apply valid_invalidate; now apply dense_valid|]. intros i I.
        rewrite reg_invalidate, reg_dense by exact Dd. cbn [body with_body]. rewrite (A i I), <- (reg_dense d _ Dd), (Rd i I).
        reflexivity.
      - cbn [enc invalidate with_body]. rewrite Dd. split; [contradiction|discriminate]. }
    destruct (enc_cases h2 V2) as [D|[D|D]]; [|contradiction|]; rewrite D; cbn [N.eqb DENSE RAW SPARSE Pos.eqb].
    + destruct (all_max ok_dense dense_at (fun l i => v <- dense_get (body h2) i ;; dense_max l i v)
         (dense_at (body h2))) with (a := body d) as (l & -> & O & A); [|exact Od|].
      * intros a j O J. rewrite dense_get_ok by (assumption || now apply dense_ok).
        apply dense_step; [exact O|exact J|apply dense_at_small].
      * apply FIN; [exact O|]. intros i I. rewrite (reg_dense h2 _ D). now apply A.
    + destruct (walk_max ok_dense dense_at (fun l i v => dense_max l i v) dense_step h2 (body d) V2 D Od) as (l & -> & O & A).
      cbn [fst snd]. rewrite N.eqb_refl. now apply FIN.
Qed.

Lemma init_wf : wf (body sparse_init) [(0, 16384)].
Proof.
  change (body sparse_init) with (zeros_run 16384). apply wf_zeros. lia.
Qed.

Lemma init_ok : valid sparse_init /\ forall i, reg sparse_init i = 0.
Proof.
  destruct (wf_facts _ _ init_wf) as (B & T & A). split.
  - split; [exact B|]. split; [reflexivity|]. right; right. split; [reflexivity|exact T].
  - intros i. unfold reg. cbn [enc sparse_init N.eqb SPARSE DENSE RAW Pos.eqb]. rewrite A. cbn [rat fst snd].
    now destruct (i <? 16384).
Qed.

Lemma row_ok : valid row_init /\ forall i, reg row_init i = 0.
Proof.
  pose proof zeros_raw as (B & L & F). split.
  - split; [exact B|]. split; [reflexivity|]. right; left. split; [reflexivity|]. split; [exact L|exact F].
  - intros i. rewrite (reg_raw row_init i eq_refl). apply zeros_raw_at.
Qed.

Lemma to_sparse_ok h : valid h -> exists h', raw_to_sparse h = Some h' /\ valid h' /\ enc h' <> RAW /\ regs_eq h h' /\
  (h' = h \/ h' = sparse_init \/ valid_cache h' = false).
Proof.
  intros V. unfold raw_to_sparse. destruct (N.eqb_spec (enc h) RAW) as [R|R]; cbn [negb].
  - pose proof (raw_ok h V R) as O.
    destruct (all_max (fun s => valid s /\ enc s <> RAW /\ (s = sparse_init \/ valid_cache s = false)) reg
      (fun s j => v <- rd (body h) j ;; if v =? 0 then Some s else set_switch s j v) (raw_at (body h)))
      with (a := sparse_init) as (h' & -> & (V' & N' & C') & A).
    + intros a j (Va & Na & Ca) J. rewrite rd_raw by assumption.
      destruct (N.eqb_spec (raw_at (body h) j) 0) as [Z|Z].
      * exists a. split; [reflexivity|]. split; [auto|]. intros i I. rewrite Z.
        destruct (N.eqb_spec i j) as [->|]; [lia|reflexivity].
      * destruct (set_switch_ok a j (raw_at (body h) j) Va Na J ltac:(lia) (raw_small _ _ O))
          as (s' & -> & [Q1 Q2] & N' & CD & CS). exists s'. split; [reflexivity|]. split; [|exact Q2].
        split; [exact Q1|]. split; [exact N'|].
        destruct (enc_cases a Va) as [D|[D|D]]; [|contradiction|].
        -- right. destruct Ca as [->|Ca]; [discriminate|]. unfold valid_cache in *. now rewrite (CD D).
        -- destruct (CS D) as [->|F]; auto.
    + split; [apply init_ok|]. split; [discriminate|now left].
    + exists h'. split; [reflexivity|]. split; [exact V'|]. split; [exact N'|]. split; [|tauto].
      intros i I. rewrite (A i I), (reg_raw h i R). rewrite (proj2 init_ok i). lia.
  - exists h. split; [reflexivity|]. split; [exact V|]. split; [exact R|]. split; [|auto]. intros i I. reflexivity.
Qed.
