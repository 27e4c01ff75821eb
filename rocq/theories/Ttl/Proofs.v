(* The stored bytes represent the table of Spec.v. *)
From Verif Require Import Common.Bytes Key.Model Key.ProofsKey Split.Model Split.Spec Split.ProofsUse Ttl.Spec Ttl.Model Ttl.Claims.
Local Open Scope Z_scope.

(* ---- varints ---- *)

Lemma varint_bytes_len n v : (0 < n)%nat -> (1 <= length (varint_bytes n v) <= n)%nat.
Proof.
  revert v; induction n as [|n IH]; intros v Hn; [lia|]. cbn [varint_bytes].
  destruct (v <? 128) eqn:E; cbn [length]; [lia|].
  destruct n as [|n]; [cbn; lia|]. specialize (IH (v / 128)). lia.
Qed.

Lemma get_varint_bytes n : forall v rest pos raw, 0 <= v -> v < 2 ^ (7 * Z.of_nat n) -> 0 <= pos -> 0 <= raw ->
  raw + v * 2 ^ pos < 2 ^ 64 -> pos < 64 -> (pos + 7 < 64 \/ v < 128) ->
  (0 < n)%nat -> (forall m, (0 < m < n)%nat -> v < 2 ^ (7 * Z.of_nat m) \/ pos + 7 * Z.of_nat m < 64) ->
  get_varint (varint_bytes n v ++ rest) pos raw = Some (raw + v * 2 ^ pos, Z.of_nat (length (varint_bytes n v))).
Proof.
  induction n as [|n IH]; intros v rest pos raw Hv Hn Hp Hr Hs Hp64 Ho Hn0 Hm; [lia|].
  cbn [varint_bytes]. destruct (Z.ltb_spec v 128) as [L|L].
  - cbn [app get_varint length]. replace (64 <=? pos) with false by lia.
    replace (v <? 128) with true by lia. rewrite (Z.mod_small v 128) by lia. rewrite Z.mod_small by (assert (0 < 2 ^ pos) by (apply Z.pow_pos_nonneg; lia); nia).
    reflexivity.
  - cbn [app get_varint length]. replace (64 <=? pos) with false by lia.
    assert (B : 0 <= v mod 128 < 128) by (apply Z.mod_pos_bound; lia).
    replace (v mod 128 + 128 <? 128) with false by lia.
    replace ((v mod 128 + 128) mod 128) with (v mod 128) by (rewrite <- Zplus_mod_idemp_r, Z_mod_same_full, Z.add_0_r, Zmod_mod; reflexivity).
    assert (P : 0 < 2 ^ pos) by (apply Z.pow_pos_nonneg; lia).
    pose proof (Z.div_mod v 128 ltac:(lia)) as D.
    assert (Q : 0 <= v / 128) by (apply Z.div_pos; lia).
    assert (P7 : 2 ^ (pos + 7) = 128 * 2 ^ pos) by (rewrite Z.pow_add_r by lia; change (2 ^ 7) with 128; ring).
    set (q := v / 128) in *. set (m := v mod 128) in *. clearbody q m.
    assert (E1 : raw + v * 2 ^ pos = raw + m * 2 ^ pos + q * 2 ^ (pos + 7)) by (rewrite P7, D; ring).
    rewrite (Z.mod_small (raw + m * 2 ^ pos)) by nia.
    destruct n as [|n]; [change (7 * Z.of_nat 1) with 7 in Hn; change (2 ^ 7) with 128 in Hn; lia|].
    rewrite IH; [|lia| | | | | | | |].
    + rewrite E1. f_equal. f_equal. lia.
    + replace (7 * Z.of_nat (S (S n))) with (7 * Z.of_nat (S n) + 7) in Hn by lia. rewrite Z.pow_add_r in Hn by lia.
      change (2 ^ 7) with 128 in Hn. lia.
    + lia.
    + nia.
    + rewrite <- E1. exact Hs.
    + lia.
    + destruct n as [|n].
      * right. replace (7 * Z.of_nat 2) with (7 + 7) in Hn by lia. rewrite Z.pow_add_r in Hn by lia. change (2 ^ 7) with 128 in Hn. lia.
      * destruct (Hm 2%nat ltac:(lia)) as [H2|H2]; [right|left; lia].
        change (2 ^ (7 * Z.of_nat 2)) with (128 * 128) in H2. lia.
    + lia.
    + intros j Hj. destruct (Hm (S j) ltac:(lia)) as [H2|H2]; [left|right; lia].
      replace (7 * Z.of_nat (S j)) with (7 * Z.of_nat j + 7) in H2 by lia. rewrite Z.pow_add_r in H2 by lia.
      change (2 ^ 7) with 128 in H2. lia.
Qed.

Lemma get_varint_varint v rest : 0 <= v < 2 ^ 64 ->
  get_varint (varint v ++ rest) 0 0 = Some (v, Z.of_nat (length (varint v))).
Proof.
  intros H. unfold varint. rewrite get_varint_bytes; try lia.
  - repeat f_equal. rewrite Z.pow_0_r. lia.
Qed.

Lemma skip_varint_bytes n v rest : (0 < n)%nat -> 0 <= v < 2 ^ (7 * Z.of_nat n) -> skip_varint (varint_bytes n v ++ rest) = Z.of_nat (length (varint_bytes n v)).
Proof.
  revert v; induction n as [|n IH]; intros v Hn Hv; [lia|]. cbn [varint_bytes].
  destruct (Z.ltb_spec v 128) as [L|L]; cbn [app skip_varint length].
  - replace (v <? 128) with true by lia. reflexivity.
  - assert (B : 0 <= v mod 128 < 128) by (apply Z.mod_pos_bound; lia).
    replace (v mod 128 + 128 <? 128) with false by lia.
    replace (7 * Z.of_nat (S n)) with (7 * Z.of_nat n + 7) in Hv by lia. rewrite Z.pow_add_r in Hv by lia.
    change (2 ^ 7) with 128 in Hv.
    destruct n as [|n]; [cbn in Hv; lia|]. rewrite IH; lia.
Qed.
Lemma skip_varint_varint v rest : 0 <= v < 2 ^ 64 -> skip_varint (varint v ++ rest) = Z.of_nat (length (varint v)).
Proof.
  intros H. apply skip_varint_bytes; [lia|]. change (7 * Z.of_nat 10) with 70.
  change (2 ^ 64) with 18446744073709551616 in H. change (2 ^ 70) with 1180591620717411303424. lia.
Qed.
Lemma varint_len v : (1 <= length (varint v))%nat.
Proof. apply varint_bytes_len. lia. Qed.

(* ---- rows pass the check ---- *)

Lemma skipn_pre (pre l : list Z) : skipn (Z.to_nat (Z.of_nat (length pre))) (pre ++ l) = l.
Proof. rewrite Nat2Z.id, skipn_app, skipn_all, Nat.sub_diag. reflexivity. Qed.

Definition field_fine (max : Z) (f : Z * wire) : Prop := 1 <= fst f <= max /\ wire_ok (snd f).

Lemma verify_row max fs : max < 2 ^ 31 -> Forall (field_fine max) fs -> forall pre fuel, (length fs < fuel)%nat ->
  Z.of_nat (length (pre ++ row_bytes fs)) < 2 ^ 63 ->
  verify_loop fuel (pre ++ row_bytes fs) max (Z.of_nat (length pre)) = VOk.
Proof.
  intros Hmax. induction 1 as [|[num w] fs [Hf Hw] HF IH]; intros pre fuel Hfuel Hsz.
  - destruct fuel as [|fuel]; [cbn in Hfuel; lia|]. cbn [row_bytes flat_map]. rewrite app_nil_r. cbn [verify_loop].
    rewrite Z.ltb_irrefl. reflexivity.
  - destruct fuel as [|fuel]; [cbn in Hfuel; lia|]. cbn [length] in Hfuel. cbn [fst snd] in Hf, Hw.
    change (row_bytes ((num, w) :: fs)) with (field_bytes (num, w) ++ row_bytes fs) in *.
    specialize (IH (pre ++ field_bytes (num, w)) fuel ltac:(lia)). rewrite <- app_assoc in IH. specialize (IH Hsz).
    cbn [verify_loop]. set (data := pre ++ field_bytes (num, w) ++ row_bytes fs) in *.
    assert (Wt : exists c body, field_bytes (num, w) = varint (num * 8 + c) ++ body /\ 0 <= c < 8 /\ (1 <= length body)%nat /\
      (c = match w with Varint _ => 0 | Fixed64 _ => 1 | Bytes _ => 2 | Fixed32 _ => 5 end) /\
      body = match w with Varint v => varint v | Fixed64 b => b | Bytes s => varint (Z.of_nat (length s)) ++ s | Fixed32 b => b end).
    { unfold field_bytes. cbn [fst snd]. destruct w; eexists; eexists; (split; [reflexivity|]); (split; [lia|]); (split; [|split; reflexivity]).
      - apply varint_len.
      - cbn in Hw. lia.
      - rewrite app_length. pose proof (varint_len (Z.of_nat (length s))). lia.
      - cbn in Hw. lia. }
    destruct Wt as (c & body & Ef & Hc & Hb & Ec & Eb).
    assert (Ed : data = pre ++ varint (num * 8 + c) ++ body ++ row_bytes fs) by (unfold data; rewrite Ef, <- app_assoc; reflexivity).
    assert (Ld : Z.of_nat (length data) = Z.of_nat (length pre) + Z.of_nat (length (varint (num * 8 + c))) + Z.of_nat (length body) + Z.of_nat (length (row_bytes fs))).
    { rewrite Ed, !app_length. lia. }
    rewrite app_length, Ef, app_length in IH.
    pose proof (varint_len (num * 8 + c)) as Lv.
    replace (Z.of_nat (length pre) <? Z.of_nat (length data)) with true by lia.
    rewrite Ed at 1. rewrite skipn_pre, get_varint_varint by lia. cbn zeta.
    replace (Z.of_nat (length data) <=? Z.of_nat (length pre) + Z.of_nat (length (varint (num * 8 + c)))) with false by lia.
    replace ((num * 8 + c) / 8) with num by (rewrite Z.div_add_l by lia; rewrite Z.div_small by lia; lia).
    replace ((num * 8 + c) mod 8) with c by (rewrite Z.add_comm, Z.mod_add by lia; rewrite Z.mod_small by lia; reflexivity).
    replace ((max <? num) || (num =? 0)) with false by lia.
    assert (Eo : Z.of_nat (length pre) + Z.of_nat (length (varint (num * 8 + c))) = Z.of_nat (length (pre ++ varint (num * 8 + c)))) by (rewrite app_length; lia).
    assert (Sk : skipn (Z.to_nat (Z.of_nat (length pre) + Z.of_nat (length (varint (num * 8 + c))))) data = body ++ row_bytes fs).
    { rewrite Eo, Ed, app_assoc. apply skipn_pre. }
    rewrite Sk. clearbody data. destruct w as [v|b|s|b]; subst c; cbn in Hw; subst body.
    + rewrite skip_varint_varint by exact Hw.
      replace (Z.of_nat (length pre) + Z.of_nat (length (varint (num * 8 + 0))) + Z.of_nat (length (varint v))) with (Z.of_nat (length pre + (length (varint (num * 8 + 0)) + length (varint v)))) by lia. exact IH.
    + replace (Z.of_nat (length pre) + Z.of_nat (length (varint (num * 8 + 1))) + 8) with (Z.of_nat (length pre + (length (varint (num * 8 + 1)) + length b))) by lia. exact IH.
    + rewrite app_length in Ld, IH. change (2 ^ 63) with 9223372036854775808 in Hsz.
      rewrite <- app_assoc, get_varint_varint by (change (2 ^ 64) with 18446744073709551616; lia).
      rewrite Z.mod_small by (change (2 ^ 64) with 18446744073709551616; lia).
      replace (Z.of_nat (length pre) + Z.of_nat (length (varint (num * 8 + 2))) + Z.of_nat (length (varint (Z.of_nat (length s)))) + Z.of_nat (length s))
        with (Z.of_nat (length pre + (length (varint (num * 8 + 2)) + (length (varint (Z.of_nat (length s))) + length s)))) by lia. exact IH.
    + replace (Z.of_nat (length pre) + Z.of_nat (length (varint (num * 8 + 5))) + 4) with (Z.of_nat (length pre + (length (varint (num * 8 + 5)) + length b))) by lia. exact IH.
Qed.

Lemma row_count fs : (length fs <= length (row_bytes fs))%nat.
Proof.
  induction fs as [|[n w] fs IH]; cbn [row_bytes flat_map length]; [lia|]. fold (row_bytes fs). rewrite app_length.
  assert (1 <= length (field_bytes (n, w)))%nat; [|lia].
  unfold field_bytes. cbn [fst snd]. destruct w; rewrite app_length; match goal with |- context[varint ?x] => pose proof (varint_len x) end; lia.
Qed.

Lemma verification_row max v : max < 2 ^ 31 -> is_row max v -> verification_fields v max = VOk.
Proof.
  intros Hm [Hs (fs & HF & ->)]. unfold verification_fields.
  apply (verify_row max fs Hm HF [] (S (S (length (row_bytes fs))))); [pose proof (row_count fs); lia|exact Hs].
Qed.

Lemma varint_bytes_ok n v : 0 <= v -> bytes_ok (varint_bytes n v).
Proof.
  revert v; induction n as [|n IH]; intros v Hv; cbn [varint_bytes]; [constructor|].
  destruct (Z.ltb_spec v 128); constructor; try constructor; try (unfold is_byte; lia).
  apply IH. apply Z.div_pos; lia.
Qed.

Lemma row_bytes_ok max v : is_row max v -> bytes_ok v.
Proof.
  intros [_ (fs & HF & ->)]. unfold row_bytes. induction HF as [|[n w] fs [Hf Hw] HF IH]; cbn [flat_map]; [constructor|].
  apply Forall_app. split; [|exact IH]. unfold field_bytes. cbn [fst snd] in *.
  destruct w; cbn in Hw; repeat (apply Forall_app; split); try (apply varint_bytes_ok; lia); try apply Hw; exact Hw.
Qed.

(* ---- a time in front of a row is no row of a table with fewer than 80 columns ---- *)

Lemma time_head big t : plausible t -> exists b rest, app_i64 big t = 128 :: b :: rest /\ 5 <= b <= 16 /\ length rest = 6%nat.
Proof.
  intros Hp. unfold plausible in Hp. rewrite app_i64_be by lia.
  set (x := t + 9223372036854775808).
  exists ((x / 281474976710656) mod 256), (be_bytes 6 x).
  split; [|split; [|apply be_bytes_length]].
  - assert (E : be_bytes 8 x = (x / 72057594037927936) mod 256 :: (x / 281474976710656) mod 256 :: be_bytes 6 x) by reflexivity.
    rewrite E. f_equal. assert (x / 72057594037927936 = 128) as -> by (unfold x; symmetry; apply Z.div_unique with (r := t); lia).
    reflexivity.
  - assert (A : 32773 <= x / 281474976710656 <= 32784).
    { unfold x. split; [apply Z.div_le_lower_bound; lia|]. apply Z.lt_succ_r. apply Z.div_lt_upper_bound; lia. }
    set (q := x / 281474976710656) in *. clearbody q. lia.
Qed.

Lemma verification_time big max t v : max < 80 -> plausible t -> verification_fields (app_i64 big t ++ v) max = VBad.
Proof.
  intros Hm Hp. destruct (time_head big t Hp) as (b & rest & -> & Hb & Hl).
  unfold verification_fields. cbn [app]. set (n := length (128 :: b :: rest ++ v)).
  assert (Hn : Z.of_nat n >= 8) by (unfold n; cbn [length]; rewrite app_length; lia).
  generalize (S n) as fuel. intros fuel. cbn [verify_loop]. fold n. replace (0 <? Z.of_nat n) with true by lia. cbn [Z.to_nat skipn get_varint].
  change (64 <=? 0) with false. change (128 <? 128) with false. change (64 <=? 0 + 7) with false. cbn iota.
  replace (b <? 128) with true by lia.
  change (128 mod 128) with 0. change (0 + 7) with 7. change (2 ^ 7) with 128. rewrite (Z.mod_small b 128) by lia.
  rewrite Z.mul_0_l, Z.add_0_l, Z.mod_0_l by (vm_compute; discriminate). rewrite Z.add_0_l.
  rewrite Z.mod_small by (change (2 ^ 64) with 18446744073709551616; lia).
  cbn zeta. replace (Z.of_nat n <=? 1 + 1) with false by lia.
  replace (b * 128 / 8) with (b * 16) by (rewrite <- (Z.div_mul (b * 16) 8) by lia; f_equal; lia).
  replace (max <? b * 16) with true by lia. reflexivity.
Qed.

(* ---- decoding ---- *)

Definition stored (big : bool) (max : Z) (use : bool) (base : Z) (k : ekey) (sv : list Z) (ve : list Z * option Z) : Prop :=
  if use then
    exists t, snd ve = Some t /\
      (sv = app_i64 big t ++ fst ve /\ i64_time t /\ (base = 0 \/ (plausible t /\ clear_value max k (fst ve))) \/
       base <> 0 /\ sv = fst ve /\ t = base /\ clear_value max k (fst ve))
  else sv = fst ve /\ snd ve = None /\ clear_value max k (fst ve).

Lemma plaus_valid t : valid_timestamp_us t = true <-> plausible t.
Proof. unfold valid_timestamp_us, plausible. rewrite andb_true_iff, !Z.ltb_lt. reflexivity. Qed.
Lemma plaus_not t : valid_timestamp_us t = false <-> ~ plausible t.
Proof. rewrite <- plaus_valid. destruct (valid_timestamp_us t); split; congruence. Qed.

Lemma skip_app_i64 big t v : skipn 8 (app_i64 big t ++ v) = v.
Proof. rewrite <- (app_i64_len big t) at 1. rewrite skipn_app, skipn_all, Nat.sub_diag. reflexivity. Qed.

Lemma extract_some big v : (8 <= length v)%nat -> exists t, extract_i64 big v 0 = Some t.
Proof.
  intros L. unfold extract_i64, extract_word, peek. destruct (Nat.leb_spec (0 + 8) (length v)); [|lia].
  eexists. reflexivity.
Qed.

Lemma clear_bytes max k v : clear_value max k v -> bytes_ok v.
Proof.
  unfold clear_value. destruct (fst k).
  - intros [_ H]. eapply row_bytes_ok; exact H.
  - intros ->. constructor.
  - intros [H _]. exact H.
Qed.

Lemma decode_stored big max base k sv v t : max < 2 ^ 31 ->
  stored big max true base k sv (v, Some t) -> ttl_decode big max (fst k) base sv = Dec v t.
Proof.
  intros Hmax (t' & E & H). cbn [fst snd] in *. injection E as <-.
  assert (P63 : 2 ^ 63 = 9223372036854775808) by reflexivity.
  destruct H as [(-> & Ht & Hb)|(Hb & -> & -> & Hc)]; unfold ttl_decode.
  - unfold i64_time in Ht. rewrite extract_app_i64 by lia. rewrite skip_app_i64.
    destruct (Z.eqb_spec base 0) as [->|Nb]; [reflexivity|].
    destruct Hb as [Hb|[Hp Hc]]; [contradiction|].
    rewrite app_length, app_i64_len. replace (8 + length v <? 8)%nat with false by (symmetry; apply Nat.ltb_ge; lia).
    replace (valid_timestamp_us t) with true by (symmetry; apply plaus_valid; exact Hp). cbn [negb].
    unfold clear_value in Hc. destruct (fst k).
    + destruct Hc as [Hm Hr]. rewrite verification_time by assumption. reflexivity.
    + subst v. cbn [length Nat.add Nat.eqb]. reflexivity.
    + reflexivity.
  - replace (base =? 0) with false by lia.
    destruct (Nat.ltb_spec (length v) 8) as [L|L]; [reflexivity|].
    destruct (extract_some big v L) as [time Et]. rewrite Et.
    pose proof (extract_inv big v time (clear_bytes _ _ _ Hc) L Et) as Ev.
    destruct (valid_timestamp_us time) eqn:V; cbn [negb]; [exfalso|reflexivity].
    apply plaus_valid in V. unfold clear_value in Hc. destruct (fst k).
    + destruct Hc as [Hm Hr]. pose proof (verification_row max v Hmax Hr) as Ok.
      rewrite Ev, verification_time in Ok by assumption. discriminate.
    + subst v. cbn in L. lia.
    + destruct Hc as [_ Hn]. apply Hn. exists time, (skipn 8 v). split; [exact V|].
      rewrite Ev at 1. rewrite app_i64_be by (unfold plausible in V; lia). rewrite P63. reflexivity.
Qed.

(* ---- the represented table ---- *)

Definition repr_entry (big : bool) (max : Z) (use : bool) (base : Z) (a : ekey * list Z) (b : ekey * (list Z * option Z)) : Prop :=
  fst a = fst b /\ stored big max use base (fst a) (snd a) (snd b).
Definition repr (big : bool) (max : Z) (g : region) (s : bool * table) : Prop :=
  rg_use g = fst s /\ Forall2 (repr_entry big max (rg_use g) (rg_base g)) (rg_kv g) (snd s).

Section F2.
Context {A B : Type} (P : ekey -> A -> B -> Prop).
Definition pe (a : ekey * A) (b : ekey * B) : Prop := fst a = fst b /\ P (fst a) (snd a) (snd b).
Lemma find_f2 l m k : Forall2 pe l m ->
  match find l k, find m k with Some a, Some b => P k a b | None, None => True | _, _ => False end.
Proof.
  induction 1 as [|[ka a] [kb b] l m [E H] F IH]; cbn [find]; [exact I|]. cbn [fst snd] in *. subst kb.
  destruct (ekey_dec k ka) as [->|N]; [exact H|exact IH].
Qed.
Lemma set_f2 l m k a b : Forall2 pe l m -> P k a b -> Forall2 pe (set l k a) (set m k b).
Proof.
  intros F Hab. induction F as [|[ka a'] [kb b'] l m [E H] F IH]; cbn [set].
  - constructor; [split; [reflexivity|exact Hab]|constructor].
  - cbn [fst snd] in *. subst kb. destruct (ekey_dec k ka) as [->|N].
    + constructor; [split; [reflexivity|exact Hab]|exact F].
    + constructor; [split; [reflexivity|exact H]|exact IH].
Qed.
Lemma unset_f2 l m k : Forall2 pe l m -> Forall2 pe (unset l k) (unset m k).
Proof.
  induction 1 as [|[ka a'] [kb b'] l m [E H] F IH]; cbn [unset]; [constructor|].
  cbn [fst snd] in *. subst kb. destruct (ekey_dec k ka) as [->|N]; [exact IH|].
  constructor; [split; [reflexivity|exact H]|exact IH].
Qed.
End F2.

Lemma get_repr big max g s now k : max < 2 ^ 31 -> repr big max g s -> 0 < now ->
  get_update big max g now k = answer (look (snd s) now k).
Proof.
  intros Hmax [Hu HF] Hn. unfold get_update, look.
  pose proof (find_f2 _ _ _ k HF) as Hf.
  destruct (find (rg_kv g) k) as [sv|], (find (snd s) k) as [[v e]|]; try contradiction; [|reflexivity].
  replace (0 <? now) with true by lia. rewrite andb_true_r.
  destruct (rg_use g) eqn:U.
  - destruct e as [t|]; [|destruct Hf as (t & E & _); discriminate].
    rewrite (decode_stored big max (rg_base g) k sv v t Hmax Hf). cbn [alive].
    destruct (Z.ltb_spec t now), (Z.leb_spec now t); try lia; reflexivity.
  - destruct Hf as (-> & E & _). cbn [snd] in E. subst e. reflexivity.
Qed.

Lemma scan_repr big max g s now sel : max < 2 ^ 31 -> repr big max g s ->
  scan big max (rg_use g) (rg_base g) now sel (rg_kv g) = Rows (look_all (snd s) now sel).
Proof.
  intros Hmax [Hu HF]. unfold look_all. induction HF as [|[k sv] [k' [v e]] l m [E H] F IH]; [reflexivity|].
  cbn [fst snd] in *. subst k'. cbn [scan filter fst snd]. destruct (sel k); [|exact IH]. cbn [andb].
  destruct (rg_use g) eqn:U.
  - destruct e as [t|]; [|destruct H as (t & E & _); discriminate].
    rewrite (decode_stored big max (rg_base g) k sv v t Hmax H). cbn [alive andb].
    destruct (Z.ltb_spec t now), (Z.leb_spec now t); try lia; [exact IH|]. rewrite IH. reflexivity.
  - destruct H as (-> & E & _). cbn [snd] in E. subst e. cbn [andb alive]. rewrite IH. reflexivity.
Qed.

Lemma put_repr big max g s k v t : repr big max g s -> (rg_use g = true -> i64_time t) ->
  (rg_use g = true -> rg_base g = 0 \/ plausible t /\ clear_value max k v) -> (rg_use g = false -> clear_value max k v) ->
  repr big max (put_kv big g k v t) (fst s, set (snd s) k (v, if fst s then Some t else None)).
Proof.
  intros [Hu HF] Ht Hon Hoff. split; [exact Hu|]. cbn [rg_use rg_base rg_kv put_kv snd].
  apply (set_f2 (stored big max (rg_use g) (rg_base g))); [exact HF|]. rewrite <- Hu. unfold stored, stored_value.
  destruct (rg_use g) eqn:U; cbn [fst snd andb].
  - specialize (Ht eq_refl). unfold i64_time in Ht. replace (0 <? t) with true by lia.
    exists t. split; [reflexivity|]. left. split; [reflexivity|]. split; [exact Ht|]. exact (Hon eq_refl).
  - repeat split. exact (Hoff eq_refl).
Qed.

(* ---- histories ---- *)

Lemma plausible_i64 e : plausible e -> i64_time e.
Proof. unfold plausible, i64_time. change (2 ^ 63) with 9223372036854775808. lia. Qed.

Lemma step_repr big max g s o ops : repr big max g s -> history_fine max (fst s) (o :: ops) ->
  repr big max (apply big g o) (step s o) /\ history_fine max (fst (step s o)) ops.
Proof.
  intros R Ho. destruct s as [ttl t]. destruct o as [k v e|k|base]; cbn [apply step history_fine fst] in *.
  - destruct Ho as (Hp & Hc & Hr). split; [|exact Hr]. pose proof R as [Hu _]. cbn [fst] in Hu.
    apply (put_repr big max g (ttl, t) k v e R); rewrite Hu.
    + intros E. apply plausible_i64. exact (Hp E).
    + intros E. right. split; [exact (Hp E)|exact Hc].
    + intros _. exact Hc.
  - split; [|exact Ho]. destruct R as [Hu HF]. split; [exact Hu|]. cbn [rg_use rg_base rg_kv delete_kv snd].
    apply (unset_f2 (stored big max (rg_use g) (rg_base g))). exact HF.
  - destruct Ho as [Ho Hr].
    destruct R as [Hu HF]. unfold update_ttl_info. cbn [fst snd] in *. destruct (rg_use g) eqn:U; subst ttl.
    + split; [|exact Hr]. split; [exact U|]. rewrite U. exact HF.
    + split; [|exact Hr]. split; [reflexivity|]. cbn [rg_use rg_base rg_kv snd]. clear U.
      induction HF as [|[ka sv] [kb [v e]] l m [E H] F IH]; cbn [map]; constructor; [|exact IH].
      cbn [fst snd] in *. subst kb. destruct H as (-> & _ & Hc). cbn [fst] in *. split; [reflexivity|]. cbn [fst snd stored].
      exists base. split; [reflexivity|]. right. unfold i64_time in Ho. cbn [fst]. split; [lia|]. split; [reflexivity|]. split; [reflexivity|exact Hc].
Qed.

Lemma run_repr big max ops : forall g s, repr big max g s -> history_fine max (fst s) ops ->
  repr big max (fold_left (apply big) ops g) (fold_left step ops s).
Proof.
  induction ops as [|o ops IH]; intros g s R Ho; [exact R|]. cbn [fold_left].
  destruct (step_repr big max g s o ops R Ho) as [R' Ho']. apply IH; assumption.
Qed.

(* tables created with TTL *)
Lemma step_created big max g s o : repr big max g s -> rg_use g = true -> rg_base g = 0 -> created_fine o ->
  repr big max (apply big g o) (step s o) /\ rg_use (apply big g o) = true /\ rg_base (apply big g o) = 0.
Proof.
  intros R U B0 Ho. destruct s as [ttl t]. destruct o as [k v e|k|base]; cbn [apply step created_fine] in *.
  - split; [|split; assumption]. apply (put_repr big max g (ttl, t) k v e R (fun _ => Ho)); [left; exact B0|congruence].
  - split; [|split; assumption]. destruct R as [Hu HF]. split; [exact Hu|]. cbn [rg_use rg_base rg_kv delete_kv snd].
    apply (unset_f2 (stored big max (rg_use g) (rg_base g))). exact HF.
  - unfold update_ttl_info. rewrite U. destruct R as [Hu HF]. cbn [fst] in Hu. rewrite <- Hu, U. repeat split; try assumption.
Qed.
Lemma run_created big max ops : Forall created_fine ops -> forall g s, repr big max g s -> rg_use g = true -> rg_base g = 0 ->
  repr big max (fold_left (apply big) ops g) (fold_left step ops s).
Proof.
  induction 1 as [|o ops Ho HF IH]; intros g s R U B0; [exact R|]. cbn [fold_left].
  destruct (step_created big max g s o R U B0 Ho) as (R' & U' & B'). apply IH; assumption.
Qed.
