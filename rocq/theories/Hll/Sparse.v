(** The sparse encoding: strings as lists of runs, and what the code does to them. *)
From Coq Require Import NArith ZArith List Bool Lia.
From Verif.Hll Require Import Spec Model Dense.
Import ListNotations.
Open Scope N_scope.

(** * Bytes *)
Definition all_bytes : list N := map N.of_nat (seq 0 256).

Lemma by_bytes (p : N -> bool) : forallb p all_bytes = true -> forall b, b < 256 -> p b = true.
Proof.
  intros F b L. rewrite forallb_forall in F. apply F. unfold all_bytes.
  apply in_map_iff. exists (N.to_nat b). split; [lia|]. apply in_seq. lia.
Qed.

Definition byte_facts (b : N) : bool :=
  Bool.eqb (is_zero b) (b <? 64)
  && Bool.eqb (is_xzero b) ((64 <=? b) && (b <? 128))
  && Bool.eqb (is_val b) (128 <=? b)
  && (if b <? 64 then zero_len b =? b + 1 else true)
  && (if (64 <=? b) && (b <? 128) then N.land b 0x3f =? b - 64 else true)
  && (if 128 <=? b then (val_value b =? (b - 128) / 4 + 1) && (val_len b =? (b - 128) mod 4 + 1) else true).

Lemma byte_facts_ok : forallb byte_facts all_bytes = true.
Proof. vm_compute. reflexivity. Qed.

Lemma byte_split b : b < 256 ->
  is_zero b = (b <? 64) /\ is_xzero b = ((64 <=? b) && (b <? 128)) /\ is_val b = (128 <=? b) /\
  (b < 64 -> zero_len b = b + 1) /\
  (64 <= b < 128 -> N.land b 0x3f = b - 64) /\
  (128 <= b -> val_value b = (b - 128) / 4 + 1 /\ val_len b = (b - 128) mod 4 + 1).
Proof.
  intros L. pose proof (by_bytes _ byte_facts_ok b L) as F. unfold byte_facts in F.
  rewrite !andb_true_iff in F. destruct F as (((((F1 & F2) & F3) & F4) & F5) & F6).
  apply eqb_prop in F1, F2, F3. repeat split; try assumption.
  - intros B. destruct (N.ltb_spec b 64); [now apply N.eqb_eq|lia].
  - intros B. destruct (N.leb_spec 64 b); [|lia]. destruct (N.ltb_spec b 128); [|lia]. now apply N.eqb_eq.
  - destruct (N.leb_spec 128 b); [|lia]. apply andb_true_iff in F6. now apply N.eqb_eq.
  - destruct (N.leb_spec 128 b); [|lia]. apply andb_true_iff in F6. now apply N.eqb_eq.
Qed.

Lemma zero_byte b : b < 64 -> is_zero b = true /\ is_xzero b = false /\ is_val b = false /\ zero_len b = b + 1.
Proof.
  intros L. destruct (byte_split b) as (-> & -> & -> & Z & _); [lia|]. rewrite (Z L).
  destruct (N.ltb_spec b 64); [|lia]. destruct (N.leb_spec 64 b); [lia|]. destruct (N.leb_spec 128 b); [lia|].
  repeat split.
Qed.

Lemma xzero_byte b c : 64 <= b < 128 -> c < 256 ->
  is_zero b = false /\ is_xzero b = true /\ is_val b = false /\ xzero_len b c = (b - 64) * 256 + c + 1.
Proof.
  intros L C. destruct (byte_split b) as (-> & -> & -> & _ & X & _); [lia|]. unfold xzero_len. rewrite (X L).
  destruct (N.ltb_spec b 64); [lia|]. destruct (N.leb_spec 64 b); [|lia]. destruct (N.leb_spec 128 b); [lia|].
  destruct (N.ltb_spec b 128); [|lia]. repeat split.
  f_equal. rewrite N.shiftl_mul_pow2. rewrite <- N.lxor_lor, <- N.add_nocarry_lxor; [reflexivity| |].
  all: apply N.bits_inj; intros m; rewrite N.land_spec, N.bits_0;
    destruct (N.lt_ge_cases m 8) as [M|M];
      [rewrite N.mul_pow2_bits_low by exact M; reflexivity
      |rewrite (testbit_small c 8 m) by assumption; apply andb_false_r].
Qed.

Lemma val_byte b : 128 <= b < 256 ->
  is_zero b = false /\ is_xzero b = false /\ is_val b = true /\
  val_value b = (b - 128) / 4 + 1 /\ val_len b = (b - 128) mod 4 + 1.
Proof.
  intros L. destruct (byte_split b) as (-> & -> & -> & _ & _ & V); [lia|]. destruct (V (proj1 L)) as (-> & ->).
  destruct (N.ltb_spec b 64); [lia|]. destruct (N.leb_spec 64 b); [|lia]. destruct (N.leb_spec 128 b); [|lia].
  destruct (N.ltb_spec b 128); [lia|]. repeat split.
Qed.

Definition val_facts (v : N) : bool :=
  forallb (fun n => val_set (v + 1) (n + 1) =? 128 + 4 * v + n) [0; 1; 2; 3].

Lemma val_set_eq v n : 1 <= v <= 32 -> 1 <= n <= 4 -> val_set v n = 128 + 4 * (v - 1) + (n - 1).
Proof.
  intros V L. assert (F : forallb val_facts (map N.of_nat (seq 0 32)) = true) by (vm_compute; reflexivity).
  rewrite forallb_forall in F. specialize (F (v - 1)). unfold val_facts in F.
  assert (In (v - 1) (map N.of_nat (seq 0 32))) as M.
  { apply in_map_iff. exists (N.to_nat (v - 1)). split; [lia|]. apply in_seq. lia. }
  specialize (F M). rewrite forallb_forall in F. specialize (F (n - 1)).
  replace (v - 1 + 1) with v in F by lia. replace (n - 1 + 1) with n in F by lia.
  apply N.eqb_eq. apply F. assert (C : n = 1 \/ n = 2 \/ n = 3 \/ n = 4) by lia.
  destruct C as [->|[->|[->| ->]]]; cbn; auto.
Qed.

Lemma or64 : forallb (fun x => N.lor x 0x40 =? 64 + x) (map N.of_nat (seq 0 64)) = true.
Proof. vm_compute. reflexivity. Qed.

Lemma xzero_set_eq n : 1 <= n <= 16384 -> xzero_set n = [64 + (n - 1) / 256; (n - 1) mod 256].
Proof.
  intros L. unfold xzero_set. f_equal; [|f_equal].
  - rewrite N.shiftr_div_pow2. change (2 ^ 8) with 256.
    assert (D : (n - 1) / 256 < 64) by (apply N.div_lt_upper_bound; lia).
    pose proof or64 as F. rewrite forallb_forall in F. apply N.eqb_eq. apply F.
    set (d := (n - 1) / 256) in *. clearbody d.
    apply in_map_iff. exists (N.to_nat d). split; [lia|]. apply in_seq. lia.
  - change 0xff with (N.ones 8). now rewrite N.land_ones.
Qed.

(** * Runs *)
Inductive wf : list N -> list (N * N) -> Prop :=
| wf_nil : wf [] []
| wf_zero b t rs : b < 64 -> wf t rs -> wf (b :: t) ((0, b + 1) :: rs)
| wf_xzero b c t rs : 64 <= b < 128 -> c < 256 -> wf t rs ->
    wf (b :: c :: t) ((0, (b - 64) * 256 + c + 1) :: rs)
| wf_val b t rs : 128 <= b < 256 -> wf t rs ->
    wf (b :: t) (((b - 128) / 4 + 1, (b - 128) mod 4 + 1) :: rs).

Fixpoint total (rs : list (N * N)) : N :=
  match rs with [] => 0 | r :: t => snd r + total t end.

Fixpoint rat (rs : list (N * N)) (i : N) : N :=
  match rs with
  | [] => 0
  | r :: t => if i <? snd r then fst r else rat t (i - snd r)
  end.

Lemma total_app a b : total (a ++ b) = total a + total b.
Proof. induction a as [|r t IH]; cbn [app total]; [lia|]. rewrite IH. lia. Qed.

Lemma rat_app a b i : rat (a ++ b) i = if i <? total a then rat a i else rat b (i - total a).
Proof.
  revert i; induction a as [|r t IH]; intros i; cbn [app total rat].
  - destruct (N.ltb_spec i 0); [lia|]. f_equal. lia.
  - rewrite IH. destruct (N.ltb_spec i (snd r)); destruct (N.ltb_spec (i - snd r) (total t));
      destruct (N.ltb_spec i (snd r + total t)); try lia; try reflexivity. f_equal. lia.
Qed.

Lemma wf_app a ra b rb : wf a ra -> wf b rb -> wf (a ++ b) (ra ++ rb).
Proof. intros A B. induction A; cbn [app]; try constructor; auto. Qed.

Lemma wf_facts l rs : wf l rs ->
  bytes l /\ sparse_total l = Some (total rs) /\ forall i, sparse_at l i = rat rs i.
Proof.
  induction 1 as [|b t rs B W (IB & IT & IA)|b c t rs B C W (IB & IT & IA)|b t rs B W (IB & IT & IA)].
  - repeat split. constructor.
  - split; [constructor; [lia|exact IB]|]. cbn [sparse_total sparse_at rat total fst snd].
    destruct (N.ltb_spec b 64); [|lia]. rewrite IT. split; [reflexivity|].
    intros i. now rewrite IA.
  - split; [constructor; [lia|constructor; [exact C|exact IB]]|]. cbn [sparse_total sparse_at rat total fst snd].
    destruct (N.ltb_spec b 64); [lia|]. destruct (N.ltb_spec b 128); [|lia]. rewrite IT. split; [reflexivity|].
    intros i. now rewrite IA.
  - split; [constructor; [lia|exact IB]|]. cbn [sparse_total sparse_at rat total fst snd].
    destruct (N.ltb_spec b 64); [lia|]. destruct (N.ltb_spec b 128); [lia|]. rewrite IT. split; [reflexivity|].
    intros i. now rewrite IA.
Qed.

Lemma wf_of_bytes k : forall l, (length l <= k)%nat -> bytes l -> forall n, sparse_total l = Some n -> exists rs, wf l rs.
Proof.
  induction k as [|k IH]; intros l L B n T.
  - destruct l; [|cbn in L; lia]. exists []. constructor.
  - destruct l as [|b t]; [exists []; constructor|].
    apply Forall_cons_iff in B. destruct B as [Bb Bt]. cbn [sparse_total] in T. cbn [length] in L.
    destruct (N.ltb_spec b 64) as [Z|Z].
    + destruct (sparse_total t) as [m|] eqn:Et; [|discriminate].
      destruct (IH t ltac:(lia) Bt m Et) as [rs W]. eexists. now apply wf_zero; [|exact W].
    + destruct (N.ltb_spec b 128) as [X|X].
      * destruct t as [|c t]; [discriminate|]. apply Forall_cons_iff in Bt. destruct Bt as [Bc Bt].
        cbn [length] in L. destruct (sparse_total t) as [m|] eqn:Et; [|discriminate].
        destruct (IH t ltac:(lia) Bt m Et) as [rs W]. eexists. now apply wf_xzero; [|exact Bc|exact W].
      * destruct (sparse_total t) as [m|] eqn:Et; [|discriminate].
        destruct (IH t ltac:(lia) Bt m Et) as [rs W]. eexists. now apply wf_val; [|exact W].
Qed.

Lemma wf_valset v n : 1 <= v <= 32 -> 1 <= n <= 4 -> wf [val_set v n] [(v, n)].
Proof.
  intros V L. rewrite val_set_eq by assumption.
  replace (v, n) with (((128 + 4 * (v - 1) + (n - 1)) - 128) / 4 + 1, ((128 + 4 * (v - 1) + (n - 1)) - 128) mod 4 + 1).
  - apply wf_val; [lia|constructor].
  - f_equal.
    + assert ((128 + 4 * (v - 1) + (n - 1) - 128) / 4 = v - 1); [|lia].
      symmetry. apply N.div_unique with (n - 1); lia.
    + assert ((128 + 4 * (v - 1) + (n - 1) - 128) mod 4 = n - 1); [|lia].
      symmetry. apply N.mod_unique with (v - 1); lia.
Qed.

Lemma wf_zeros n : 1 <= n <= 16384 -> wf (zeros_run n) [(0, n)].
Proof.
  intros L. unfold zeros_run, ZERO_MAX_LEN. destruct (N.ltb_spec 64 n) as [Z|Z].
  - rewrite xzero_set_eq by exact L. pose proof (N.div_mod (n - 1) 256). pose proof (N.mod_lt (n - 1) 256).
    assert (D : (n - 1) / 256 < 64) by (apply N.div_lt_upper_bound; lia).
    replace (0, n) with (0, (64 + (n - 1) / 256 - 64) * 256 + (n - 1) mod 256 + 1) by (f_equal; lia).
    apply wf_xzero; [lia|lia|constructor].
  - unfold zero_set. replace (0, n) with (0, n - 1 + 1) by (f_equal; lia). apply wf_zero; [lia|constructor].
Qed.

Definition same (r r' : list (N * N)) : Prop := total r' = total r /\ forall i, rat r' i = rat r i.

Lemma same_refl r : same r r.
Proof. split; auto. Qed.
Lemma same_trans a b c : same a b -> same b c -> same a c.
Proof. intros [T A] [T' A']. split; [congruence|]. intros i. now rewrite A', A. Qed.
Lemma same_cons x a b : same a b -> same (x :: a) (x :: b).
Proof. intros [T A]. split; cbn [total rat]; [now rewrite T|]. intros i. now rewrite A. Qed.
Lemma same_app x a b : same a b -> same (x ++ a) (x ++ b).
Proof. intros S. induction x; cbn [app]; [exact S|now apply same_cons]. Qed.

Lemma val_ranges b : 128 <= b < 256 -> 1 <= (b - 128) / 4 + 1 <= 32 /\ 1 <= (b - 128) mod 4 + 1 <= 4.
Proof.
  intros L. assert ((b - 128) / 4 < 32) by (apply N.div_lt_upper_bound; lia).
  pose proof (N.mod_lt (b - 128) 4 ltac:(lia)) as M.
  set (d := (b - 128) / 4) in *. set (m := (b - 128) mod 4) in *. clearbody d m. lia.
Qed.

Lemma set_update_ok k : forall l rs, wf l rs -> exists rs', wf (set_update k l) rs' /\ same rs rs'.
Proof.
  induction k as [|k IH]; intros l rs W.
  - exists rs. split; [destruct l; exact W|apply same_refl].
  - destruct W as [|b t rs B W|b c t rs B C W|b t rs B W].
    + exists []. split; [constructor|apply same_refl].
    + cbn [set_update]. destruct (zero_byte b B) as (-> & -> & _ & _).
      destruct (IH _ _ W) as (rs' & W' & S). exists ((0, b + 1) :: rs'). split; [now constructor|now apply same_cons].
    + cbn [set_update]. destruct (xzero_byte b c B C) as (_ & -> & _ & _).
      destruct (IH _ _ W) as (rs' & W' & S). eexists. split; [apply wf_xzero; eassumption|now apply same_cons].
    + cbn [set_update]. destruct (val_byte b B) as (-> & -> & _ & Vb & Lb).
      assert (PLAIN : exists rs', wf (b :: set_update k t) rs' /\
                 same (((b - 128) / 4 + 1, (b - 128) mod 4 + 1) :: rs) rs').
      { destruct (IH _ _ W) as (rs' & W' & S). eexists. split; [apply wf_val; eassumption|now apply same_cons]. }
      destruct W as [|c t rs C W|c d t rs C D W|c t rs C W].
      * exact PLAIN.
      * destruct (zero_byte c C) as (_ & _ & -> & _). exact PLAIN.
      * destruct (xzero_byte c d C D) as (_ & _ & -> & _). exact PLAIN.
      * destruct (val_byte c C) as (_ & _ & -> & Vc & Lc).
        destruct (N.eqb_spec (val_value b) (val_value c)) as [EV|]; [|exact PLAIN].
        destruct (N.leb_spec (val_len b + val_len c) VAL_MAX_LEN) as [EL|]; [|exact PLAIN].
        clear PLAIN. unfold VAL_MAX_LEN in EL.
        destruct (val_ranges b B) as [R1 R2]. destruct (val_ranges c C) as [R3 R4].
        destruct (IH (val_set (val_value b) (val_len b + val_len c) :: t)
                    ((val_value b, val_len b + val_len c) :: rs)) as (rs' & W' & S).
        { apply (wf_app [_] [_] t rs); [apply wf_valset; lia|exact W]. }
        exists rs'. split; [exact W'|]. eapply same_trans; [|exact S].
        split; cbn [total rat fst snd]; rewrite <- ?Vb, <- ?Lb, <- ?Vc, <- ?Lc; [lia|].
        intros i. destruct (N.ltb_spec i (val_len b + val_len c)); destruct (N.ltb_spec i (val_len b));
          destruct (N.ltb_spec (i - val_len b) (val_len c)); try lia; try congruence.
        f_equal. lia.
Qed.

(** The run found. *)
Lemma scan_ok l rs : wf l rs -> forall index first front prev r0 r1,
  wf front r0 -> wf prev r1 -> first = total r0 + total r1 ->
  first <= index -> index < first + total rs ->
  exists front' prev' first' span l' r0' r1' v rs',
    scan index first front prev l = Some (front', prev', first', span, l') /\
    wf front' r0' /\ wf prev' r1' /\ wf l' ((v, span) :: rs') /\
    front ++ prev ++ l = front' ++ prev' ++ l' /\
    r0 ++ r1 ++ rs = r0' ++ r1' ++ (v, span) :: rs' /\
    first' = total r0' + total r1' /\ first' <= index /\ index < first' + span.
Proof.
  induction 1 as [|b t rs B W IH|b c t rs B C W IH|b t rs B W IH];
    intros index first front prev r0 r1 W0 W1 F LO HI; cbn [scan].
  - cbn [total] in HI. lia.
  - destruct (zero_byte b B) as (-> & _ & _ & ->). cbn [total snd] in HI.
    destruct (N.leb_spec (index + 1) (first + (b + 1))) as [K|K].
    + exists front, prev, first, (b + 1), (b :: t), r0, r1, 0, rs.
      do 3 (split; [reflexivity || assumption|]). split; [now constructor|]. repeat split; auto. lia.
    + destruct (IH index (first + (b + 1)) (front ++ prev) [b] (r0 ++ r1) [(0, b + 1)])
        as (front' & prev' & first' & span & l' & r0' & r1' & v & rs' & E & X).
      * now apply wf_app.
      * apply wf_zero; [exact B|constructor].
      * rewrite total_app. cbn [total snd]. lia.
      * lia.
      * lia.
      * exists front', prev', first', span, l', r0', r1', v, rs'. split; [exact E|].
        rewrite <- !app_assoc in X. cbn [app] in X. exact X.
  - destruct (xzero_byte b c B C) as (-> & _ & -> & ->). cbn [total snd] in HI.
    destruct (N.leb_spec (index + 1) (first + ((b - 64) * 256 + c + 1))) as [K|K].
    + exists front, prev, first, ((b - 64) * 256 + c + 1), (b :: c :: t), r0, r1, 0, rs.
      do 3 (split; [reflexivity || assumption|]). split; [now constructor|]. repeat split; auto. lia.
    + destruct (IH index (first + ((b - 64) * 256 + c + 1)) (front ++ prev) [b; c] (r0 ++ r1) [(0, (b - 64) * 256 + c + 1)])
        as (front' & prev' & first' & span & l' & r0' & r1' & v & rs' & E & X).
      * now apply wf_app.
      * apply wf_xzero; [exact B|exact C|constructor].
      * rewrite total_app. cbn [total snd]. lia.
      * lia.
      * lia.
      * exists front', prev', first', span, l', r0', r1', v, rs'. split; [exact E|].
        rewrite <- !app_assoc in X. cbn [app] in X. exact X.
  - destruct (val_byte b B) as (-> & _ & -> & _ & ->). cbn [total snd] in HI.
    destruct (N.leb_spec (index + 1) (first + ((b - 128) mod 4 + 1))) as [K|K].
    + exists front, prev, first, ((b - 128) mod 4 + 1), (b :: t), r0, r1, ((b - 128) / 4 + 1), rs.
      do 3 (split; [reflexivity || assumption|]). split; [now constructor|]. repeat split; auto. lia.
    + destruct (IH index (first + ((b - 128) mod 4 + 1)) (front ++ prev) [b] (r0 ++ r1) [((b - 128) / 4 + 1, (b - 128) mod 4 + 1)])
        as (front' & prev' & first' & span & l' & r0' & r1' & v & rs' & E & X).
      * now apply wf_app.
      * apply wf_val; [exact B|constructor].
      * rewrite total_app. cbn [total snd]. lia.
      * lia.
      * lia.
      * exists front', prev', first', span, l', r0', r1', v, rs'. split; [exact E|].
        rewrite <- !app_assoc in X. cbn [app] in X. exact X.
Qed.

(** Putting one number in the middle of a run. *)
Lemma rat_mid R v span rs seq index c :
  total R <= index -> index < total R + span -> total seq = span ->
  (forall k, k < span -> rat seq k = if k =? index - total R then c else v) ->
  total (R ++ seq ++ rs) = total (R ++ (v, span) :: rs) /\
  forall i, rat (R ++ seq ++ rs) i = if i =? index then c else rat (R ++ (v, span) :: rs) i.
Proof.
  intros LO HI T A. split; [rewrite !total_app; cbn [total snd]; lia|].
  intros i. rewrite !rat_app. cbn [rat snd fst]. rewrite T.
  destruct (N.ltb_spec i (total R)) as [K|K].
  - destruct (N.eqb_spec i index); [lia|reflexivity].
  - destruct (N.ltb_spec (i - total R) span) as [M|M].
    + rewrite A by exact M. destruct (N.eqb_spec (i - total R) (index - total R)); destruct (N.eqb_spec i index);
        try reflexivity; lia.
    + destruct (N.eqb_spec i index); [lia|reflexivity].
Qed.

Lemma split_zero_ok first span index count :
  first <= index -> index < first + span -> span <= 16384 -> 1 <= count <= 32 ->
  exists rs, wf (split_zero first (first + span - 1) index count) rs /\ total rs = span /\
    forall k, k < span -> rat rs k = if k =? index - first then count else 0.
Proof.
  intros LO HI SP C. unfold split_zero.
  pose proof (wf_valset count 1 C ltac:(lia)) as WV.
  assert (PRE : exists r, wf (if index =? first then [] else zeros_run (index - first)) r /\
            total r = index - first /\ forall k, rat r k = 0).
  { destruct (N.eqb_spec index first) as [->|NE].
    - exists []. repeat split; [constructor|cbn; lia].
    - exists [(0, index - first)]. split; [apply wf_zeros; lia|]. split; [cbn [total snd]; lia|].
      intros k. cbn [rat fst snd]. now destruct (k <? index - first). }
  assert (POST : exists r, wf (if index =? first + span - 1 then [] else zeros_run (first + span - 1 - index)) r /\
            total r = first + span - 1 - index /\ forall k, rat r k = 0).
  { destruct (N.eqb_spec index (first + span - 1)) as [->|NE].
    - exists []. repeat split; [constructor|cbn; lia].
    - exists [(0, first + span - 1 - index)]. split; [apply wf_zeros; lia|]. split; [cbn [total snd]; lia|].
      intros k. cbn [rat fst snd]. now destruct (k <? first + span - 1 - index). }
  destruct PRE as (ra & Wa & Ta & Ra). destruct POST as (rb & Wb & Tb & Rb).
  exists (ra ++ [(count, 1)] ++ rb). split; [apply wf_app; [exact Wa|apply wf_app; [exact WV|exact Wb]]|].
  split; [rewrite !total_app; cbn [total snd]; lia|].
  intros k K. rewrite !rat_app. cbn [total rat fst snd]. rewrite Ra, !Rb, Ta.
  destruct (N.ltb_spec k (index - first)); destruct (N.eqb_spec k (index - first)); try lia; try reflexivity.
  - destruct (N.ltb_spec (k - (index - first)) (1 + 0)); [|lia].
    destruct (N.ltb_spec (k - (index - first)) 1); [reflexivity|lia].
  - destruct (N.ltb_spec (k - (index - first)) (1 + 0)); [lia|reflexivity].
Qed.

Lemma split_val_ok first span index count v :
  first <= index -> index < first + span -> span <= 4 -> 1 <= v <= 32 -> 1 <= count <= 32 ->
  exists rs, wf (split_val first (first + span - 1) index count v) rs /\ total rs = span /\
    forall k, k < span -> rat rs k = if k =? index - first then count else v.
Proof.
  intros LO HI SP V C. unfold split_val.
  pose proof (wf_valset count 1 C ltac:(lia)) as WV.
  assert (PRE : exists r, wf (if index =? first then [] else [val_set v (index - first)]) r /\
            total r = index - first /\ forall k, k < index - first -> rat r k = v).
  { destruct (N.eqb_spec index first) as [->|NE].
    - exists []. split; [constructor|]. split; [cbn; lia|]. intros k K. lia.
    - exists [(v, index - first)]. split; [apply wf_valset; lia|]. split; [cbn [total snd]; lia|].
      intros k K. cbn [rat fst snd]. destruct (N.ltb_spec k (index - first)); [reflexivity|lia]. }
  assert (POST : exists r, wf (if index =? first + span - 1 then [] else [val_set v (first + span - 1 - index)]) r /\
            total r = first + span - 1 - index /\ forall k, k < first + span - 1 - index -> rat r k = v).
  { destruct (N.eqb_spec index (first + span - 1)) as [->|NE].
    - exists []. split; [constructor|]. split; [cbn; lia|]. intros k K. lia.
    - exists [(v, first + span - 1 - index)]. split; [apply wf_valset; lia|]. split; [cbn [total snd]; lia|].
      intros k K. cbn [rat fst snd]. destruct (N.ltb_spec k (first + span - 1 - index)); [reflexivity|lia]. }
  destruct PRE as (ra & Wa & Ta & Ra). destruct POST as (rb & Wb & Tb & Rb).
  exists (ra ++ [(count, 1)] ++ rb). split; [apply wf_app; [exact Wa|apply wf_app; [exact WV|exact Wb]]|].
  split; [rewrite !total_app; cbn [total snd]; lia|].
  intros k K. rewrite !rat_app. cbn [total rat fst snd]. rewrite Ta.
  destruct (N.ltb_spec k (index - first)); destruct (N.eqb_spec k (index - first)); try lia.
  - now apply Ra.
  - destruct (N.ltb_spec (k - (index - first)) (1 + 0)); [|lia].
    destruct (N.ltb_spec (k - (index - first)) 1); [reflexivity|lia].
  - destruct (N.ltb_spec (k - (index - first)) (1 + 0)); [lia|].
    apply Rb. lia.
Qed.

(** * The walks *)
Section Walks.
  Context {A : Type}.
  Variable ok : A -> Prop.
  Variable at_ : A -> N -> N.
  Variable set : A -> N -> N -> option A.
  Variable comb : N -> N -> N.
  Hypothesis step : forall a j v, ok a -> j < REGS -> v < 64 ->
    exists a', set a j v = Some a' /\ ok a' /\
      forall i, i < REGS -> at_ a' i = if i =? j then comb (at_ a j) v else at_ a i.

  Lemma run_ok n : forall i v a, ok a -> i + N.of_nat n <= REGS -> v < 64 ->
    exists a', run set n i v a = Some a' /\ ok a' /\
      forall j, j < REGS ->
        at_ a' j = if (i <=? j) && (j <? i + N.of_nat n) then comb (at_ a j) v else at_ a j.
  Proof.
    induction n as [|n IH]; intros i v a O J V; cbn [run].
    - exists a. split; [reflexivity|]. split; [exact O|]. intros j J0.
      destruct (N.leb_spec i j); destruct (N.ltb_spec j (i + N.of_nat 0)); cbn [andb]; try reflexivity. lia.
    - destruct (step a i v O) as (a1 & -> & O1 & A1); [lia|exact V|].
      destruct (IH (i + 1) v a1 O1) as (a2 & -> & O2 & A2); [lia|exact V|].
      exists a2. split; [reflexivity|]. split; [exact O2|]. intros j J0. rewrite (A2 j J0), (A1 j J0).
      destruct (N.eqb_spec j i) as [->|NE].
      + destruct (N.leb_spec (i + 1) i); [lia|]. destruct (N.leb_spec i i); [|lia].
        destruct (N.ltb_spec i (i + N.of_nat (S n))); [reflexivity|lia].
      + destruct (N.leb_spec (i + 1) j); destruct (N.leb_spec i j);
          destruct (N.ltb_spec j (i + 1 + N.of_nat n)); destruct (N.ltb_spec j (i + N.of_nat (S n)));
          cbn [andb]; try reflexivity; lia.
  Qed.

  Lemma walk_ok l rs : wf l rs -> forall i a, ok a -> i + total rs <= REGS ->
    exists a', walk set l i a = Some (a', i + total rs) /\ ok a' /\
      forall j, j < REGS ->
        at_ a' j = if j <? i then at_ a j
                   else if rat rs (j - i) =? 0 then at_ a j else comb (at_ a j) (rat rs (j - i)).
  Proof.
    induction 1 as [|b t rs B W IH|b c t rs B C W IH|b t rs B W IH]; intros i a O T; cbn [walk].
    - exists a. cbn [total]. rewrite N.add_0_r. split; [reflexivity|]. split; [exact O|].
      intros j J. cbn [rat]. now destruct (j <? i).
    - destruct (zero_byte b B) as (-> & _ & _ & ->). cbn [total snd] in T |- *.
      destruct (IH (i + (b + 1)) a O) as (a' & -> & O' & A'); [lia|].
      exists a'. split; [f_equal; f_equal; lia|]. split; [exact O'|]. intros j J. rewrite (A' j J).
      cbn [rat fst snd]. destruct (N.ltb_spec j (i + (b + 1))); destruct (N.ltb_spec j i);
        destruct (N.ltb_spec (j - i) (b + 1)); try lia; try reflexivity.
      replace (j - (i + (b + 1))) with (j - i - (b + 1)) by lia. reflexivity.
    - destruct (xzero_byte b c B C) as (-> & -> & _ & ->). cbn [total snd] in T |- *.
      set (n := (b - 64) * 256 + c + 1) in *. clearbody n.
      destruct (IH (i + n) a O) as (a' & -> & O' & A'); [lia|].
      exists a'. split; [f_equal; f_equal; lia|]. split; [exact O'|]. intros j J. rewrite (A' j J).
      cbn [rat fst snd]. destruct (N.ltb_spec j (i + n)); destruct (N.ltb_spec j i);
        destruct (N.ltb_spec (j - i) n); try lia; try reflexivity.
      replace (j - (i + n)) with (j - i - n) by lia. reflexivity.
    - destruct (val_byte b B) as (-> & -> & _ & -> & ->). cbn [total snd] in T |- *.
      destruct (val_ranges b B) as [RV RN].
      set (n := (b - 128) mod 4 + 1) in *. set (v := (b - 128) / 4 + 1) in *. clearbody n v.
      destruct (N.ltb_spec REGS (n + i)); [lia|].
      destruct (run_ok (N.to_nat n) i v a O) as (a1 & -> & O1 & A1); [lia|lia|].
      destruct (IH (i + n) a1 O1) as (a' & -> & O' & A'); [lia|].
      exists a'. split; [f_equal; f_equal; lia|]. split; [exact O'|]. intros j J. rewrite (A' j J), (A1 j J).
      rewrite N2Nat.id. cbn [rat fst snd].
      destruct (N.ltb_spec j (i + n)); destruct (N.ltb_spec j i); destruct (N.leb_spec i j);
        destruct (N.ltb_spec (j - i) n); cbn [andb]; try lia; try reflexivity.
      + destruct (N.eqb_spec v 0); [lia|reflexivity].
      + replace (j - (i + n)) with (j - i - n) by lia. reflexivity.
  Qed.
End Walks.
