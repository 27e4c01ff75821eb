(* Lemmas for PropertiesCode.v. *)
From Coq Require Import Bool ZArith NArith List Lia.
From Verif Require Import Str.Spec Str.Model Str.Proofs Str.CodeSpec Str.Code.
Import ListNotations.
Open Scope N_scope.

(* ---- numerals ---- *)

Lemma digit_dig d : d < 16 -> digit (dig d) = Some d.
Proof.
  intros L. unfold dig, digit. destruct (N.ltb_spec d 10).
  - replace ((48 <=? 48 + d) && (48 + d <=? 57)) with true.
    + f_equal. lia.
    + symmetry. apply andb_true_iff. split; apply N.leb_le; lia.
  - replace ((48 <=? 55 + d) && (55 + d <=? 57)) with false.
    + replace ((65 <=? 55 + d) && (55 + d <=? 70)) with true.
      * f_equal. lia.
      * symmetry. apply andb_true_iff. split; apply N.leb_le; lia.
    + symmetry. apply andb_false_iff. right. apply N.leb_gt. lia.
Qed.

Lemma dig_zero d : d < 16 -> d <> 0 -> dig d <> 48.
Proof. intros L Z. unfold dig. destruct (N.ltb_spec d 10); lia. Qed.

Lemma number_app base : forall a acc b,
  number base acc (a ++ b) = match number base acc a with
                             | Some x => number base x b
                             | None => None
                             end.
Proof.
  induction a as [|c a IH]; intros acc b; [reflexivity|]. cbn [app number].
  destruct (digit c); [|reflexivity]. destruct (_ <? _); [apply IH|reflexivity].
Qed.

Lemma digits_rev_ok base : 2 <= base <= 16 -> forall fuel u, u < base ^ N.of_nat fuel ->
  number base 0 (rev (digits_rev fuel base u)) = Some u /\
  (u <> 0 -> digits_rev fuel base u <> [] /\ hd 0 (rev (digits_rev fuel base u)) <> 48).
Proof.
  intros B. induction fuel as [|fuel IH]; intros u L.
  - cbn in L. assert (u = 0) by lia. subst. split; [reflexivity|lia].
  - cbn [digits_rev]. destruct (N.eqb_spec u 0) as [Q|Q]; [subst; split; [reflexivity|lia]|].
    assert (M : u mod base < base) by (apply N.mod_lt; lia).
    assert (D : u / base < base ^ N.of_nat fuel).
    { rewrite Nnat.Nat2N.inj_succ, N.pow_succ_r' in L. apply N.div_lt_upper_bound; lia. }
    destruct (IH _ D) as (V & H0). cbn [rev]. split.
    + rewrite number_app, V. cbn [number]. rewrite digit_dig by lia.
      replace (u mod base <? base) with true by (symmetry; apply N.ltb_lt; exact M).
      f_equal. pose proof (N.div_mod u base ltac:(lia)). lia.
    + intros _. split; [discriminate|].
      destruct (N.eq_dec (u / base) 0) as [E|E].
      * rewrite E. assert (R : digits_rev fuel base 0 = []) by (destruct fuel; reflexivity).
        rewrite R. cbn. apply dig_zero; [lia|].
        pose proof (N.div_mod u base ltac:(lia)). rewrite E in *. lia.
      * destruct (H0 E) as (NE & HD).
        destruct (rev (digits_rev fuel base (u / base))) as [|x r] eqn:ER; [|exact HD].
        exfalso. apply NE. rewrite <- (rev_involutive (digits_rev fuel base (u / base))), ER.
        reflexivity.
Qed.

Lemma digits_ok base u : 2 <= base <= 16 -> u < 2 ^ 64 -> is_numeral base u (digits base u).
Proof.
  intros B L. unfold digits, is_numeral. destruct (N.eqb_spec u 0) as [->|Q].
  - split; [discriminate|]. split; [|lia]. cbn [number].
    change (digit 48) with (Some 0). cbv iota.
    replace (0 <? base) with true by (symmetry; apply N.ltb_lt; lia). reflexivity.
  - assert (LB : u < base ^ N.of_nat 64).
    { apply N.lt_le_trans with (2 ^ 64); [exact L|].
      change (N.of_nat 64) with 64. apply N.pow_le_mono_l. lia. }
    destruct (digits_rev_ok base B 64 u LB) as (V & H0). destruct (H0 Q) as (NE & HD).
    clear H0. revert V NE HD. generalize (digits_rev 64 base u). intros l V NE HD.
    split; [|split; [exact V|intros _; exact HD]].
    intros E. apply NE. rewrite <- (rev_involutive l), E. reflexivity.
Qed.

Lemma u64_bound z : as_uint64 z < 2 ^ 64.
Proof.
  unfold as_uint64. pose proof (Z.mod_pos_bound z (2^64) ltac:(lia)).
  change (2 ^ 64) with (Z.to_N (2 ^ 64)%Z). lia.
Qed.

(* ---- hex and unhex ---- *)

Definition is_byte (b : N) : Prop := b < 256.

Lemma nibble_dig d : d < 16 -> nibble (dig d) = Some d.
Proof.
  intros L. pose proof (digit_dig d L) as D. unfold nibble, digit in *.
  destruct ((48 <=? dig d) && (dig d <=? 57)); [exact D|].
  destruct ((65 <=? dig d) && (dig d <=? 70)) eqn:E; [|discriminate].
  apply andb_true_iff in E. destruct E as (E & _). apply N.leb_le in E.
  injection D as D. f_equal. lia.
Qed.

Definition hex2 (b : N) : bytes := [dig (b / 16); dig (b mod 16)].

Lemma byte_parts b : is_byte b -> b / 16 < 16 /\ b mod 16 < 16 /\ b / 16 * 16 + b mod 16 = b.
Proof.
  intros L. unfold is_byte in L. split; [apply N.div_lt_upper_bound; lia|].
  split; [apply N.mod_lt; lia|]. pose proof (N.div_mod b 16 ltac:(lia)). lia.
Qed.

Lemma unhex_hex s : Forall is_byte s -> forall out,
  unhex_loop (flat_map hex2 s) 0 true out = Some (out ++ s).
Proof.
  induction 1 as [|b s B F IH]; intros out; [cbn; now rewrite app_nil_r|].
  destruct (byte_parts b B) as (P & Q & R).
  cbn [flat_map hex2 app unhex_loop negb].
  rewrite nibble_dig by exact P. cbn [negb]. rewrite nibble_dig by exact Q.
  replace (0 * 16 + b / 16) with (b / 16) by lia. rewrite R.
  rewrite (N.mod_small b 256) by exact B. fold hex2.
  change (flat_map _ s) with (flat_map hex2 s). rewrite IH, <- app_assoc. reflexivity.
Qed.

Lemma hex_length s : length (flat_map hex2 s) = (2 * length s)%nat.
Proof. induction s as [|b s IH]; [reflexivity|]. cbn [flat_map hex2 app length]. rewrite IH. lia. Qed.

Lemma hex_ok s : Forall is_byte s -> is_hex s (flat_map hex2 s).
Proof.
  intros F. split; [apply hex_length|].
  induction F as [|b s B F IH]; intros i x E; [destruct i; discriminate|].
  destruct i as [|i].
  - injection E as <-. destruct (byte_parts b B) as (P & Q & R).
    cbn [Nat.mul skipn flat_map hex2 app firstn number Nat.add].
    rewrite digit_dig by exact P.
    replace (b / 16 <? 16) with true by (symmetry; apply N.ltb_lt; exact P).
    rewrite digit_dig by exact Q.
    replace (b mod 16 <? 16) with true by (symmetry; apply N.ltb_lt; exact Q).
    f_equal. lia.
  - replace (2 * S i)%nat with (S (S (2 * i))) by lia. exact (IH i x E).
Qed.

(* ---- char_length ---- *)

Lemma step_table : forallb (fun b =>
  (Bool.eqb (N.land b 128 =? 0) (b <? 128)) &&
  (Bool.eqb (N.land b 224 =? 192) ((192 <=? b) && (b <? 224)))) (map N.of_nat (seq 0 256)) = true.
Proof. vm_compute. reflexivity. Qed.

Lemma step_count b l nb : b < 256 ->
  fst (char_step (l, nb) b) =
  if (b <? 128) || ((192 <=? b) && (b <? 224)) then (l + 1)%Z else l.
Proof.
  intros L. pose proof step_table as T. rewrite forallb_forall in T.
  specialize (T b). rewrite andb_true_iff, !Bool.eqb_true_iff in T.
  destruct T as (T1 & T2).
  { apply in_map_iff. exists (N.to_nat b). split; [apply Nnat.N2Nat.id|]. apply in_seq. lia. }
  unfold char_step. rewrite T1, T2. destruct (b <? 128); [reflexivity|]. cbn [orb].
  destruct ((192 <=? b) && (b <? 224)); [reflexivity|].
  repeat match goal with |- context [if ?c then (?a, ?x) else _] => destruct c end; reflexivity.
Qed.

Definition counted (b : N) : bool := (b <? 128) || ((192 <=? b) && (b <? 224)).

Lemma fold_count s : Forall is_byte s -> forall l nb,
  fst (fold_left char_step s (l, nb)) = (l + Z.of_nat (length (filter counted s)))%Z.
Proof.
  induction 1 as [|b s B F IH]; intros l nb; cbn [fold_left filter].
  - cbn. lia.
  - pose proof (step_count b l nb B) as E. destruct (char_step (l, nb) b) as (l', nb') eqn:Q.
    cbn [fst] in E. rewrite IH. fold (counted b) in E. rewrite E.
    destruct (counted b); cbn [length]; lia.
Qed.

Lemma cont_not x : counted (128 + x mod 64) = false /\ is_byte (128 + x mod 64).
Proof.
  pose proof (N.mod_lt x 64 ltac:(lia)). unfold counted, is_byte. set (m := x mod 64) in *.
  split; [|lia]. apply orb_false_iff. split; [apply N.ltb_ge; lia|].
  apply andb_false_iff. left. apply N.leb_gt. lia.
Qed.

Lemma lead_not k x : 224 <= k -> x < 16 -> k + x < 256 ->
  counted (k + x) = false /\ is_byte (k + x).
Proof.
  intros K X L. split; [|exact L]. unfold counted. apply orb_false_iff.
  split; [apply N.ltb_ge; lia|]. apply andb_false_iff. right. apply N.ltb_ge. lia.
Qed.

Lemma utf8_counted c : code_point c ->
  Forall is_byte (utf8 c) /\
  length (filter counted (utf8 c)) = if c <? 2048 then 1%nat else 0%nat.
Proof.
  unfold code_point. intros L. unfold utf8. destruct (N.ltb_spec c 128) as [A|A].
  - replace (c <? 2048) with true by (symmetry; apply N.ltb_lt; lia).
    split; [repeat constructor; unfold is_byte; lia|]. cbn [filter]. unfold counted at 1.
    replace (c <? 128) with true by (symmetry; apply N.ltb_lt; lia). reflexivity.
  - destruct (N.ltb_spec c 2048) as [B|B].
    + destruct (cont_not c) as (C1 & C2).
      assert (D : c / 64 < 32) by (apply N.div_lt_upper_bound; lia).
      set (m := c / 64) in *. clearbody m.
      split; [repeat constructor; [unfold is_byte; lia|exact C2]|].
      cbn [filter]. rewrite C1.
      replace (counted (192 + m)) with true; [reflexivity|].
      symmetry. unfold counted. apply orb_true_iff. right. apply andb_true_iff.
      split; [apply N.leb_le; lia|apply N.ltb_lt; lia].
    + destruct (N.ltb_spec c 65536) as [E|E].
      * assert (D : c / 4096 < 16) by (apply N.div_lt_upper_bound; lia).
        destruct (cont_not c) as (C1 & C2). destruct (cont_not (c / 64)) as (C3 & C4).
        destruct (lead_not 224 (c / 4096)) as (C5 & C6); [lia|exact D|clear - D; set (m := c / 4096) in *; lia|].
        split; [repeat constructor; assumption|]. cbn [filter]. rewrite C1, C3, C5. reflexivity.
      * assert (D : c / 262144 < 5) by (apply N.div_lt_upper_bound; lia).
        destruct (cont_not c) as (C1 & C2). destruct (cont_not (c / 64)) as (C3 & C4).
        destruct (cont_not (c / 4096)) as (C7 & C8).
        destruct (lead_not 240 (c / 262144)) as (C5 & C6);
          [lia|clear - D; set (m := c / 262144) in *; lia|clear - D; set (m := c / 262144) in *; lia|].
        split; [repeat constructor; assumption|]. cbn [filter].
        rewrite C1, C3, C5, C7. reflexivity.
Qed.

Lemma char_length_ok cs : Forall code_point cs ->
  char_length (VStr (flat_map utf8 cs))
  = RInt (Z.of_nat (length (filter (fun c => c <? 2048) cs))).
Proof.
  intros F. unfold char_length. cbn [get_string]. f_equal.
  assert (G : Forall is_byte (flat_map utf8 cs) /\
              length (filter counted (flat_map utf8 cs))
              = length (filter (fun c => c <? 2048) cs)).
  { induction F as [|c cs C F (IH1 & IH2)]; [split; [constructor|reflexivity]|].
    destruct (utf8_counted c C) as (A & B). cbn [flat_map filter]. split.
    - apply Forall_app. split; assumption.
    - rewrite filter_app, app_length, IH2, B. destruct (c <? 2048); reflexivity. }
  destruct G as (G1 & G2). rewrite fold_count by exact G1. rewrite G2. reflexivity.
Qed.

(* ---- sets ---- *)

Lemma bytes_eqb_spec a b : bytes_eqb a b = true <-> a = b.
Proof.
  revert b; induction a as [|x a IH]; intros [|y b]; cbn; try (split; congruence).
  rewrite andb_true_iff, N.eqb_eq, IH. split; [intros (-> & ->); reflexivity|].
  intros E; injection E as -> ->. split; reflexivity.
Qed.

Lemma at_one_cons c s i : at_ [44] (c :: s) i <->
  (c = 44 /\ i = O) \/ (exists j, i = S j /\ at_ [44] s j).
Proof.
  destruct i as [|i].
  - rewrite at_0. split.
    + intros (b & E). injection E as -> _. left. split; reflexivity.
    + intros [(-> & _)|(j & E & _)]; [exists s; reflexivity|discriminate].
  - rewrite at_S. split; [intros A; right; exists i; split; [reflexivity|exact A]|].
    intros [(_ & E)|(j & E & A)]; [discriminate|]. injection E as <-. exact A.
Qed.

Lemma split_commas_ok s : Pieces [44] s (split_commas s).
Proof.
  induction s as [|c s IH]; cbn [split_commas].
  - apply P_last. intros j A. apply at_bound in A. cbn in A. lia.
  - destruct (N.eqb_spec c 44) as [->|Q].
    + change (44 :: s) with ([] ++ [44] ++ s). apply P_cut; [|exact IH].
      split; [apply at_0; exists s; reflexivity|]. cbn. lia.
    + generalize dependent (split_commas s). intros l0 IH. inversion IH as [t N E1 E2|a b l F P E1 E2].
      * apply P_last. intros j A. apply at_one_cons in A.
        destruct A as [(E & _)|(k & _ & A)]; [congruence|exact (N k A)].
      * change (c :: a ++ [44] ++ b) with ((c :: a) ++ [44] ++ b). apply P_cut; [|exact P].
        destruct F as (A & B). split.
        -- apply at_one_cons. right. exists (length a). split; [reflexivity|exact A].
        -- intros j J A'. apply at_one_cons in A'.
           destruct A' as [(E & _)|(k & -> & A')]; [congruence|].
           apply (B k); [cbn in J; lia|exact A'].
Qed.

Lemma place_ok t l : forall i, (0 <= i)%Z ->
  (place t l i = 0%Z /\ ~ In t l) \/
  (exists k, place t l i = (i + Z.of_nat k + 1)%Z /\ nth_error l k = Some t /\
     forall j, (j < k)%nat -> nth_error l j <> Some t).
Proof.
  induction l as [|s l IH]; intros i P; cbn [place].
  - left. split; [reflexivity|intros []].
  - destruct (bytes_eqb s t) eqn:E.
    + apply bytes_eqb_spec in E. subst. right. exists O. split; [lia|].
      split; [reflexivity|]. lia.
    + assert (NE : s <> t) by (intros ->; rewrite (proj2 (bytes_eqb_spec t t) eq_refl) in E; discriminate).
      destruct (IH (i + 1)%Z ltac:(lia)) as [(R & N)|(k & R & N & F)].
      * left. split; [exact R|]. intros [Q|Q]; [exact (NE Q)|exact (N Q)].
      * right. exists (S k). split; [rewrite R; lia|]. split; [exact N|].
        intros [|j] J; cbn; [congruence|]. apply F. lia.
Qed.

Lemma place_is t l : is_place t l (place t l 0).
Proof.
  destruct (place_ok t l 0%Z ltac:(lia)) as [(R & N)|(k & R & N & F)].
  - left. split; assumption.
  - right. rewrite R. replace (Z.to_nat (0 + Z.of_nat k + 1 - 1)) with k by lia.
    split; [lia|]. split; assumption.
Qed.

Lemma picked_zero i l : picked 0 i l = [].
Proof. revert i; induction l as [|s l IH]; intros i; [reflexivity|]. cbn. rewrite Z.bits_0. apply IH. Qed.

Lemma picked_shift l : forall n i, picked (Z.shiftr n 1) i l = picked n (S i) l.
Proof.
  induction l as [|s l IH]; intros n i; [reflexivity|]. cbn [picked].
  rewrite Z.shiftr_spec by lia. replace (Z.of_nat i + 1)%Z with (Z.of_nat (S i)) by lia.
  rewrite IH. reflexivity.
Qed.

Lemma join_snoc sep a s r : join sep ((a ++ sep ++ s) :: r) = join sep (a :: s :: r).
Proof.
  destruct r as [|x r]; cbn [join]; [reflexivity|]. rewrite <- !app_assoc. reflexivity.
Qed.

Lemma make_set_loop_ok l : forall n out,
  make_set_loop n l true out = join [44] (out :: picked n 0 l) /\
  make_set_loop n l false [] = join [44] (picked n 0 l).
Proof.
  induction l as [|s l IH]; intros n out; [split; reflexivity|].
  cbn [make_set_loop picked]. change (Z.of_nat 0) with 0%Z. rewrite Z.bit0_odd.
  assert (PZ : (Z.shiftr n 1 =? 0)%Z = true -> picked n 1 l = []).
  { intros E. apply Z.eqb_eq in E. rewrite <- picked_shift, E. apply picked_zero. }
  rewrite <- !(picked_shift l n 0) in *.
  destruct (Z.odd n).
  - split.
    + destruct (_ =? 0)%Z eqn:E; [rewrite PZ by reflexivity; cbn [join]; now rewrite <- app_assoc|].
      rewrite (proj1 (IH _ _)). rewrite <- app_assoc. apply join_snoc.
    + cbn [app]. destruct (_ =? 0)%Z eqn:E; [rewrite PZ by reflexivity; reflexivity|].
      apply (proj1 (IH _ _)).
  - split.
    + destruct (_ =? 0)%Z eqn:E; [rewrite PZ by reflexivity; reflexivity|]. apply (proj1 (IH _ _)).
    + destruct (_ =? 0)%Z eqn:E; [rewrite PZ by reflexivity; reflexivity|].
      apply (proj2 (IH _ [])).
Qed.

Lemma export_loop_ok on off sep : forall k n i out,
  export_loop k false (Z.shiftr n (Z.of_nat i)) on off sep out =
  join sep (out :: map (fun j => if Z.testbit n (Z.of_nat j) then on else off) (seq i k)).
Proof.
  induction k as [|k IH]; intros n i out; [reflexivity|].
  cbn [export_loop seq map]. rewrite Z.shiftr_shiftr by lia.
  replace (Z.of_nat i + 1)%Z with (Z.of_nat (S i)) by lia. rewrite IH.
  rewrite <- app_assoc, join_snoc.
  rewrite <- Z.bit0_odd, Z.shiftr_spec by lia. rewrite Z.add_0_l. reflexivity.
Qed.

Lemma export_set_ok z on off sep n :
  export_set z on off sep n =
  join sep (map (fun j => if Z.testbit z (Z.of_nat j) then on else off)
              (seq 0 (if ((1 <=? n) && (n <=? 64))%Z then Z.to_nat n else 64))).
Proof.
  unfold export_set. cbv zeta.
  replace (Z.to_nat (if ((64 <? n) || (n <? 1))%Z then 64%Z else n))
    with (if ((1 <=? n) && (n <=? 64))%Z then Z.to_nat n else 64%nat).
  2:{ destruct (Z.ltb_spec 64 n), (Z.ltb_spec n 1), (Z.leb_spec 1 n), (Z.leb_spec n 64);
      cbn [orb andb]; try lia; reflexivity. }
  assert (POS : exists k, (if ((1 <=? n) && (n <=? 64))%Z then Z.to_nat n else 64%nat) = S k).
  { destruct (Z.leb_spec 1 n), (Z.leb_spec n 64); cbn [andb]; try (exists 63%nat; reflexivity).
    exists (Z.to_nat (n - 1)). lia. }
  destruct POS as (k & ->). cbn [export_loop app seq map].
  change (Z.shiftr z 1) with (Z.shiftr z (Z.of_nat 1)). rewrite export_loop_ok.
  change (Z.of_nat 0) with 0%Z. rewrite Z.bit0_odd. reflexivity.
Qed.

(* ---- quote ---- *)

Definition esc (c : N) : bytes :=
  if c =? 39 then [92; 39] else if c =? 92 then [92; 92] else [c].

Lemma lexed_plain c r : c <> 39 -> c <> 92 -> lexed (c :: r) = option_map (cons c) (lexed r).
Proof.
  intros A B. cbn [lexed].
  destruct c as [|p]; [reflexivity|].
  repeat (match goal with
          | |- context [match ?q with xI _ => _ | xO _ => _ | xH => _ end] => destruct q
          end; try reflexivity; try congruence).
Qed.

Lemma quote_ok s : literal_of ([39] ++ flat_map esc s ++ [39]) = Some s.
Proof.
  cbn [app literal_of]. induction s as [|c s IH]; [reflexivity|].
  cbn [flat_map]. unfold esc at 1. destruct (N.eqb_spec c 39) as [->|A].
  - cbn [app lexed]. rewrite IH. reflexivity.
  - destruct (N.eqb_spec c 92) as [->|B].
    + cbn [app lexed]. rewrite IH. reflexivity.
    + cbn [app]. rewrite lexed_plain by assumption. rewrite IH. reflexivity.
Qed.

(* ---- format ---- *)

Lemma join_app_end sep l s : l <> [] -> join sep (l ++ [s]) = join sep l ++ sep ++ s.
Proof.
  induction l as [|x [|y l] IH]; intros NE; [congruence|reflexivity|].
  cbn [app] in *. rewrite join_cons by discriminate.
  rewrite IH by discriminate. rewrite (join_cons sep x (y :: l)) by discriminate.
  rewrite <- !app_assoc. reflexivity.
Qed.

Lemma concat_end (gs : list bytes) a : List.concat (gs ++ [a]) = List.concat gs ++ a.
Proof. rewrite List.concat_app. cbn. now rewrite app_nil_r. Qed.

Lemma commas_done fuel i s : (i <= 0)%Z -> commas fuel i s = s.
Proof. intros L. destruct fuel; [reflexivity|]. cbn. destruct (Z.ltb_spec 0 i); [lia|reflexivity]. Qed.

Lemma commas_ok : forall fuel a t, (0 < length a <= fuel)%nat ->
  exists r, commas fuel (Z.of_nat (length a)) (a ++ t) = r ++ [44] ++ t /\ is_grouped a r.
Proof.
  induction fuel as [|fuel IH]; intros a t L; [lia|]. cbn [commas].
  destruct (Z.ltb_spec 0 (Z.of_nat (length a))); [|lia].
  rewrite Nat2Z.id.
  rewrite first_app_len, skip_app_len.
  destruct (le_lt_dec (length a) 3) as [C|C].
  - rewrite commas_done by lia. exists a. split; [reflexivity|].
    exists a, []. cbn. rewrite app_nil_r. repeat split; try lia. constructor.
  - set (k := (length a - 3)%nat).
    assert (LK : length (firstn k a) = k) by (rewrite firstn_length; lia).
    replace (Z.of_nat (length a) - 3)%Z with (Z.of_nat (length (firstn k a))) by lia.
    destruct (IH (firstn k a) (skipn k a ++ [44] ++ t)) as (r & E & g & gs & D & R & G & GS);
      [lia|].
    exists (r ++ [44] ++ skipn k a). split.
    + rewrite <- (firstn_skipn k a) at 2. rewrite <- app_assoc.
      etransitivity; [exact E|]. rewrite <- !app_assoc. reflexivity.
    + exists g, (gs ++ [skipn k a]). split; [|split; [|split]].
      * rewrite concat_end, app_assoc, <- D. symmetry. apply firstn_skipn.
      * change (g :: gs ++ [skipn k a]) with ((g :: gs) ++ [skipn k a]).
        rewrite join_app_end by discriminate. rewrite <- R. reflexivity.
      * exact G.
      * apply Forall_app. split; [exact GS|]. constructor; [|constructor].
        rewrite skipn_length. lia.
Qed.

Lemma find_dot_app d f : ~ In 46 d -> (f = [] \/ exists r, f = 46 :: r) ->
  find_dot (d ++ f) = length d.
Proof.
  intros N F. induction d as [|c d IH]; cbn [app find_dot length].
  - destruct F as [->|(r & ->)]; reflexivity.
  - destruct (N.eqb_spec c 46) as [->|Q]; [exfalso; apply N; left; reflexivity|].
    rewrite IH; [reflexivity|]. intros I. apply N. right. exact I.
Qed.

Lemma format_ok d f : d <> [] -> ~ In 46 d -> (f = [] \/ exists r, f = 46 :: r) ->
  exists r, format_text (d ++ f) = r ++ f /\ is_grouped d r.
Proof.
  intros NE ND F. unfold format_text. rewrite find_dot_app by assumption.
  destruct (le_lt_dec (length d) 3) as [C|C].
  - rewrite commas_done by lia. exists d. split; [reflexivity|].
    exists d, []. cbn. rewrite app_nil_r. repeat split; try lia; [|constructor].
    destruct d; [congruence|cbn; lia].
  - set (k := (length d - 3)%nat).
    assert (LK : length (firstn k d) = k) by (rewrite firstn_length; lia).
    replace (Z.of_nat (length d) - 3)%Z with (Z.of_nat (length (firstn k d))) by lia.
    destruct (commas_ok (S (length (d ++ f))) (firstn k d) (skipn k d ++ f))
      as (r & E & g & gs & D & R & G & GS).
    { rewrite LK, app_length. lia. }
    exists (r ++ [44] ++ skipn k d). split.
    + rewrite <- (firstn_skipn k d) at 3. rewrite <- app_assoc.
      etransitivity; [exact E|]. rewrite <- !app_assoc. reflexivity.
    + exists g, (gs ++ [skipn k d]). split; [|split; [|split]].
      * rewrite concat_end, app_assoc, <- D. symmetry. apply firstn_skipn.
      * change (g :: gs ++ [skipn k d]) with ((g :: gs) ++ [skipn k d]).
        rewrite join_app_end by discriminate. rewrite <- R. reflexivity.
      * exact G.
      * apply Forall_app. split; [exact GS|]. constructor; [|constructor].
        rewrite skipn_length. lia.
Qed.

(* ---- unhex of any text ---- *)

Definition up (c : N) : N := if (97 <=? c) && (c <=? 102) then c - 32 else c.
Definition hexdig (c : N) : Prop := (48 <= c <= 57) \/ (65 <= c <= 70) \/ (97 <= c <= 102).

Lemma nibble_spec c :
  match nibble c with
  | Some d => d < 16 /\ dig d = up c /\ hexdig c
  | None => ~ hexdig c
  end.
Proof.
  unfold nibble, hexdig, up, dig.
  destruct (N.leb_spec 48 c), (N.leb_spec c 57); cbn [andb];
  destruct (N.leb_spec 65 c), (N.leb_spec c 70); cbn [andb];
  destruct (N.leb_spec 97 c), (N.leb_spec c 102); cbn [andb]; try lia;
  match goal with |- _ /\ (if ?b then _ else _) = _ /\ _ => destruct b eqn:E end;
  try apply N.ltb_lt in E; try apply N.ltb_ge in E; lia.
Qed.

Lemma pair_div d e : d < 16 -> e < 16 ->
  ((0 * 16 + d) * 16 + e) mod 256 / 16 = d /\ ((0 * 16 + d) * 16 + e) mod 256 mod 16 = e.
Proof.
  intros D E. rewrite N.mod_small by lia. split.
  - symmetry. apply (N.div_unique _ 16 d e); lia.
  - symmetry. apply (N.mod_unique _ 16 d e); lia.
Qed.

Lemma unhex_even : forall n x out, length x = (2 * n)%nat ->
  match unhex_loop x 0 true out with
  | Some r => Forall hexdig x /\ exists t, r = out ++ t /\ flat_map hex2 t = map up x
  | None => ~ Forall hexdig x
  end.
Proof.
  induction n as [|n IH]; intros x out L.
  - destruct x; [|discriminate]. cbn. split; [constructor|]. exists [].
    rewrite app_nil_r. split; reflexivity.
  - destruct x as [|a [|b x]]; [discriminate|cbn in L; lia|].
    assert (L' : length x = (2 * n)%nat) by (cbn in L; lia).
    cbn [unhex_loop negb]. pose proof (nibble_spec a) as A. pose proof (nibble_spec b) as B.
    destruct (nibble a) as [d|].
    2:{ intros F. apply Forall_inv in F. exact (A F). }
    cbn [negb]. destruct (nibble b) as [e|].
    2:{ intros F. apply Forall_inv_tail, Forall_inv in F. exact (B F). }
    destruct A as (A1 & A2 & A3), B as (B1 & B2 & B3).
    set (v := ((0 * 16 + d) * 16 + e) mod 256) in *.
    specialize (IH x (out ++ [v]) L'). destruct (unhex_loop x 0 true (out ++ [v])) as [r|].
    + destruct IH as (F & t & -> & E).
      split; [constructor; [exact A3|constructor; [exact B3|exact F]]|].
      exists (v :: t). rewrite <- app_assoc. split; [reflexivity|].
      cbn [flat_map hex2 app map]. destruct (pair_div d e A1 B1) as (P & Q).
      fold v in P, Q. rewrite P, Q, A2, B2. do 2 f_equal. exact E.
    + intros F. apply IH. apply Forall_inv_tail, Forall_inv_tail in F. exact F.
Qed.

(** A text of odd length is read as if a 0 stood in front of it. *)
Lemma unhex_odd x : Nat.even (length x) = false ->
  unhex (VStr x) = unhex (VStr (48 :: x)).
Proof.
  intros O. unfold unhex. cbn [get_string]. rewrite O.
  assert (E : Nat.even (length (48 :: x)) = true).
  { cbn [length]. rewrite Nat.even_succ, <- Nat.negb_even, O. reflexivity. }
  rewrite E. reflexivity.
Qed.

Definition padded (x : bytes) : bytes := if Nat.even (length x) then x else 48 :: x.

Lemma unhex_ok x :
  match unhex (VStr x) with
  | RStr r => Forall hexdig x /\ hex (VStr r) = RStr (map up (padded x))
  | RNull => ~ Forall hexdig x
  | _ => False
  end.
Proof.
  assert (PX : unhex (VStr x) = unhex (VStr (padded x)) /\ Nat.even (length (padded x)) = true /\
               (Forall hexdig (padded x) <-> Forall hexdig x)).
  { unfold padded. destruct (Nat.even (length x)) eqn:E; [split; [reflexivity|split; [exact E|reflexivity]]|].
    split; [apply unhex_odd; exact E|]. split.
    - cbn [length]. rewrite Nat.even_succ, <- Nat.negb_even, E. reflexivity.
    - split; intros F; [exact (Forall_inv_tail F)|]. constructor; [|exact F].
      unfold hexdig. lia. }
  destruct PX as (-> & E & F). unfold unhex. cbn [get_string]. rewrite E.
  apply Nat.even_spec in E. destruct E as (n & E).
  pose proof (unhex_even n (padded x) [] E) as U.
  destruct (unhex_loop (padded x) 0 true []) as [r|].
  - destruct U as (U & t & -> & V). split; [apply F; exact U|]. cbn [app hex].
    change (flat_map _ t) with (flat_map hex2 t). rewrite V. reflexivity.
  - intros G. apply U, F, G.
Qed.
