(* Length-encoded values, text rows and packets. *)
From Coq Require Import ZArith List Bool Lia.
From Verif Require Import Common.Bytes Proto.Spec Proto.Model.
Import ListNotations.
Local Open Scope Z_scope.

Lemma land_255 v : Z.land v 255 = v mod 256.
Proof. change 255 with (Z.ones 8). rewrite Z.land_ones by lia. reflexivity. Qed.

Lemma shift_bytes_le n : forall v, shift_bytes n v = le_bytes n v.
Proof.
  induction n as [|n IH]; intros v; [reflexivity|]. cbn [shift_bytes le_bytes].
  rewrite IH, land_255, Z.shiftr_div_pow2 by lia. reflexivity.
Qed.
Lemma byte_at_le k v : 0 <= k -> byte_at k v = (v / 256 ^ k) mod 256.
Proof.
  intros Hk. unfold byte_at. rewrite land_255, Z.shiftr_div_pow2 by lia. f_equal. f_equal.
  change 256 with (2 ^ 8). rewrite <- Z.pow_mul_r by lia. reflexivity.
Qed.
Lemma byte_at_ok k v : is_byte (byte_at k v).
Proof. unfold byte_at, is_byte. rewrite land_255. apply Z.mod_pos_bound. lia. Qed.

Lemma bytes2 v : [byte_at 0 v; byte_at 1 v] = le_bytes 2 v.
Proof. rewrite !byte_at_le by lia. cbn [le_bytes]. rewrite Z.pow_0_r, Z.div_1_r, Z.pow_1_r. reflexivity. Qed.
Lemma bytes3 v : [byte_at 0 v; byte_at 1 v; byte_at 2 v] = le_bytes 3 v.
Proof.
  rewrite !byte_at_le by lia. cbn [le_bytes]. rewrite Z.pow_0_r, Z.div_1_r, Z.pow_1_r.
  change (256 ^ 2) with (256 * 256). rewrite <- Z.div_div by lia. reflexivity.
Qed.
Lemma bytes4 v : [byte_at 0 v; byte_at 1 v; byte_at 2 v; byte_at 3 v] = le_bytes 4 v.
Proof.
  rewrite !byte_at_le by lia. cbn [le_bytes]. rewrite Z.pow_0_r, Z.div_1_r, Z.pow_1_r.
  change (256 ^ 2) with (256 * 256). change (256 ^ 3) with (256 * 256 * 256). rewrite <- !Z.div_div by lia. reflexivity.
Qed.

Lemma length_coded_lenenc n : 0 <= n -> length_coded_binary n = lenenc n.
Proof.
  intros H0. unfold length_coded_binary, lenenc.
  destruct (Z.ltb_spec n 251); destruct (Z.leb_spec n 250); try lia.
  { f_equal. rewrite land_255, Z.mod_small by lia. reflexivity. }
  rewrite bytes2, bytes3, shift_bytes_le. reflexivity.
Qed.

Lemma take_app n s t : length s = n -> take n (s ++ t) = Some (s, t).
Proof.
  intros <-. unfold take. rewrite app_length. destruct (Nat.leb_spec (length s) (length s + length t)); [|lia].
  rewrite firstn_app, firstn_all, Nat.sub_diag, firstn_O, app_nil_r, skipn_app, skipn_all, Nat.sub_diag. reflexivity.
Qed.
Lemma fixed_int_app n v t : fixed_int n (le_bytes n v ++ t) = Some (v mod 256 ^ Z.of_nat n, t).
Proof. unfold fixed_int. rewrite take_app by apply le_bytes_length. rewrite le_val_le_bytes. reflexivity. Qed.

Lemma lenenc_int_app n t : 0 <= n < 2 ^ 64 -> lenenc_int (lenenc n ++ t) = Some (Some n, t).
Proof.
  intros Hn. unfold lenenc. destruct (Z.leb_spec n 250) as [L|L].
  { cbn [app lenenc_int]. destruct (Z.leb_spec n 250); [reflexivity|lia]. }
  destruct (Z.ltb_spec n 0x10000) as [L2|L2].
  { cbn [app lenenc_int]. change (252 <=? 250) with false. change (252 =? 251) with false. change (252 =? 252) with true. cbv iota.
    rewrite fixed_int_app, Z.mod_small; [reflexivity|]. change (256 ^ Z.of_nat 2) with 0x10000. lia. }
  destruct (Z.ltb_spec n 0x1000000) as [L3|L3].
  { cbn [app lenenc_int]. change (253 <=? 250) with false. change (253 =? 251) with false. change (253 =? 252) with false. change (253 =? 253) with true. cbv iota.
    rewrite fixed_int_app, Z.mod_small; [reflexivity|]. change (256 ^ Z.of_nat 3) with 0x1000000. lia. }
  cbn [app lenenc_int]. change (254 <=? 250) with false. change (254 =? 251) with false. change (254 =? 252) with false. change (254 =? 253) with false. change (254 =? 254) with true. cbv iota.
  rewrite fixed_int_app, Z.mod_small; [reflexivity|]. change (256 ^ Z.of_nat 8) with (2 ^ 64). lia.
Qed.

Lemma lenenc_str_app s t : Z.of_nat (length s) < 2 ^ 64 ->
  lenenc_str (lenenc (Z.of_nat (length s)) ++ s ++ t) = Some (Some s, t).
Proof. intros L. unfold lenenc_str. rewrite lenenc_int_app by lia. rewrite Nat2Z.id, take_app by reflexivity. reflexivity. Qed.

Definition str_bytes (s : list Z) : list Z := lenenc (Z.of_nat (length s)) ++ s.

Lemma append_ok b d b' : append b d = Some b' <-> b' = b ++ d /\ Z.of_nat (length (b ++ d)) <= MAX_ALLOC_BUF_SIZE.
Proof.
  unfold append. rewrite app_length. destruct (Z.leb_spec (Z.of_nat (length b + length d)) MAX_ALLOC_BUF_SIZE).
  - split; [intros [= <-]; auto|intros [-> _]; reflexivity].
  - split; [discriminate|lia].
Qed.

Lemma pack_str_ok b s b' : pack_length_coded_string b s false = Some b' <->
  b' = b ++ str_bytes s /\ Z.of_nat (length (b ++ str_bytes s)) <= MAX_ALLOC_BUF_SIZE.
Proof.
  unfold pack_length_coded_string, str_bytes. destruct s as [|c s]; [apply append_ok|].
  set (x := c :: s). rewrite length_coded_lenenc by lia.
  destruct (append b (lenenc (Z.of_nat (length x)))) as [b1|] eqn:E1.
  - apply append_ok in E1 as [-> L]. rewrite append_ok. rewrite <- app_assoc. tauto.
  - split; [discriminate|]. intros [-> L]. exfalso. unfold append in E1.
    destruct (Z.leb_spec (Z.of_nat (length b + length (lenenc (Z.of_nat (length x))))) MAX_ALLOC_BUF_SIZE); [discriminate|].
    rewrite !app_length in L. lia.
Qed.

(* ---- decimal text ---- *)
Lemma dec_digits_app s : forall acc t, dec_digits acc (s ++ t) =
  match dec_digits acc s with Some v => dec_digits v t | None => None end.
Proof.
  induction s as [|c s IH]; intros acc t; [reflexivity|]. cbn [app dec_digits]. destruct (digit c); [apply IH|reflexivity].
Qed.

Lemma digits_dec fuel : forall n acc a, 0 <= n < 10 ^ Z.of_nat fuel ->
  dec_digits a (digits fuel n acc) = dec_digits (a * 10 ^ Z.of_nat (length (digits fuel n acc) - length acc) + n) acc /\
  (0 < n -> exists d t, digits fuel n acc = d :: t /\ 48 < d <= 57) /\ (length acc <= length (digits fuel n acc) <= fuel + length acc)%nat.
Proof.
  induction fuel as [|f IH]; intros n acc a Hn.
  { cbn in Hn. assert (n = 0) as -> by lia. cbn [digits]. rewrite Nat.sub_diag. change (10 ^ Z.of_nat 0) with 1.
    split; [f_equal; lia|]. split; [lia|lia]. }
  cbn [digits]. destruct (Z.ltb_spec 0 n) as [P|P].
  - rewrite Z.quot_div_nonneg, Z.rem_mod_nonneg by lia.
    assert (Hd : 0 <= n / 10 < 10 ^ Z.of_nat f).
    { rewrite Nat2Z.inj_succ, Z.pow_succ_r in Hn by lia. split; [apply Z.div_pos; lia|apply Z.div_lt_upper_bound; lia]. }
    pose proof (Z.mod_pos_bound n 10 ltac:(lia)) as Hm.
    destruct (IH (n / 10) (48 + n mod 10 :: acc) a Hd) as (E&F&L). split; [|split].
    + rewrite E. cbn [dec_digits]. unfold digit. destruct (Z.leb_spec 48 (48 + n mod 10)); [|lia].
      destruct (Z.leb_spec (48 + n mod 10) 57); [|lia]. cbn [andb]. cbn [length] in L |- *.
      set (d := digits f (n / 10) (48 + n mod 10 :: acc)) in *.
      replace (length d - length acc)%nat with (S (length d - S (length acc)))%nat by lia.
      rewrite Nat2Z.inj_succ, Z.pow_succ_r by lia. f_equal. rewrite (Z.div_mod n 10) at 3 by lia. ring.
    + intros _. destruct (Z.eq_dec (n / 10) 0) as [Z0|Z0].
      * rewrite Z0. exists (48 + n mod 10), acc. split.
        { destruct f; cbn [digits]; reflexivity. }
        rewrite (Z.div_mod n 10), Z0 in P by lia. lia.
      * apply F. lia.
    + cbn [length] in L. lia.
  - assert (n = 0) as -> by lia. rewrite Nat.sub_diag. change (10 ^ Z.of_nat 0) with 1.
    split; [f_equal; lia|]. split; [lia|lia].
Qed.

Lemma to_string_uint64_ok v : 0 <= v < 2 ^ 64 ->
  dec_value (to_string_uint64 v) = Some v /\ (length (to_string_uint64 v) <= 20)%nat.
Proof.
  intros Hv. unfold to_string_uint64. destruct (Z.eqb_spec v 0) as [->|N]; [split; [reflexivity|cbn; lia]|].
  assert (Hb : 0 <= v < 10 ^ Z.of_nat 20) by (change (10 ^ Z.of_nat 20) with 100000000000000000000; lia).
  destruct (digits_dec 20 v [] 0 Hb) as (E&F&L). cbn [dec_digits] in E.
  destruct (F ltac:(lia)) as (d&t&Ed&Hd). split; [|cbn [length] in L; lia].
  unfold dec_value. rewrite Ed. destruct (Z.eqb_spec d 45); [lia|]. rewrite <- Ed, E. f_equal; lia.
Qed.
Lemma to_string_int64_ok v : - 2 ^ 63 <= v < 2 ^ 63 ->
  dec_value (to_string_int64 v) = Some v /\ (length (to_string_int64 v) <= 20)%nat.
Proof.
  intros Hv. unfold to_string_int64. destruct (Z.eqb_spec v 0) as [->|N]; [split; [reflexivity|cbn; lia]|].
  unfold neg64. destruct (Z.eqb_spec v (- 2 ^ 63)) as [->|N2]; [split; [vm_compute; reflexivity|cbn; lia]|].
  assert (Big : 10 ^ Z.of_nat 19 = 10000000000000000000) by reflexivity.
  assert (Sm : forall n, 0 < n < 2 ^ 63 -> dec_digits 0 (digits 20 n []) = Some n /\
                (exists d t, digits 20 n [] = d :: t /\ 48 < d <= 57) /\ (length (digits 20 n []) <= 19)%nat).
  { intros n Hn. assert (Hb : 0 <= n < 10 ^ Z.of_nat 20) by (change (10 ^ Z.of_nat 20) with 100000000000000000000; lia).
    destruct (digits_dec 20 n [] 0 Hb) as (E&F&L). cbn [dec_digits] in E. split; [rewrite E; f_equal; lia|]. split; [apply F; lia|].
    assert (Hb2 : 0 <= n / 10 < 10 ^ Z.of_nat 18).
    { change (10 ^ Z.of_nat 18) with 1000000000000000000. split; [apply Z.div_pos; lia|apply Z.div_lt_upper_bound; lia]. }
    change (digits 20 n []) with (if 0 <? n then digits 19 (Z.quot n 10) [48 + Z.rem n 10] else []).
    destruct (Z.ltb_spec 0 n); [|lia]. rewrite Z.quot_div_nonneg by lia.
    assert (G : forall f m acc, 0 <= m < 10 ^ Z.of_nat f -> digits (S f) m acc = digits f m acc).
    { clear. induction f as [|f IH]; intros m acc Hm.
      - cbn in Hm. assert (m = 0) as -> by lia. reflexivity.
      - cbn [digits] in IH |- *. destruct (Z.ltb_spec 0 m); [|reflexivity]. apply IH.
        rewrite Nat2Z.inj_succ, Z.pow_succ_r in Hm by lia. rewrite Z.quot_div_nonneg by lia.
        split; [apply Z.div_pos; lia|apply Z.div_lt_upper_bound; lia]. }
    rewrite (G 18%nat) by exact Hb2. destruct (digits_dec 18 (n / 10) [48 + Z.rem n 10] 0 Hb2) as (_&_&L2). cbn [length] in L2. lia. }
  destruct (Z.ltb_spec v 0) as [Ng|Ng].
  - destruct (Sm (- v)) as (E&(d&t&Ed&Hd)&L); [lia|]. split; [|cbn [length]; lia].
    unfold dec_value. rewrite Z.eqb_refl. rewrite Ed. rewrite <- Ed, E. cbn [option_map]. f_equal; lia.
  - destruct (Sm v) as (E&(d&t&Ed&Hd)&L); [lia|]. split; [|lia]. unfold dec_value. rewrite Ed.
    destruct (Z.eqb_spec d 45); [lia|]. rewrite <- Ed. exact E.
Qed.

(* ---- rows ---- *)

(* the text a cell stands for *)
Definition cell_text (c : cell) : option (list Z) :=
  match c with
  | CNull => None
  | CText s => Some s
  | CInt v => Some (to_string_int64 v)
  | CUint v => Some (to_string_uint64 v)
  end.
Definition cell_ok (c : cell) : Prop :=
  match c with CInt v => - 2 ^ 63 <= v < 2 ^ 63 | CUint v => 0 <= v < 2 ^ 64 | _ => True end.
Definition cell_bytes (c : cell) : list Z := match cell_text c with None => [0xfb] | Some s => str_bytes s end.

Lemma short_str s : (length s <= 20)%nat -> str_bytes s = Z.land (Z.of_nat (length s)) 0xff :: s.
Proof.
  intros L. unfold str_bytes, lenenc. destruct (Z.leb_spec (Z.of_nat (length s)) 250); [|lia].
  rewrite land_255, Z.mod_small by lia. reflexivity.
Qed.

Lemma text_value_ok b c b' : cell_ok c -> append_text_value b c = Some b' <->
  b' = b ++ cell_bytes c /\ Z.of_nat (length (b ++ cell_bytes c)) <= MAX_ALLOC_BUF_SIZE.
Proof.
  intros Hc. destruct c as [|s|v|v]; cbn [append_text_value cell_bytes cell_text].
  - apply append_ok.
  - apply pack_str_ok.
  - rewrite append_ok, short_str by apply to_string_int64_ok, Hc. tauto.
  - rewrite append_ok, short_str by apply to_string_uint64_ok, Hc. tauto.
Qed.
Lemma text_values_ok cs : forall b b', Forall cell_ok cs -> append_text_values b cs = Some b' <->
  b' = b ++ concat (map cell_bytes cs) /\ (cs <> [] -> Z.of_nat (length (b ++ concat (map cell_bytes cs))) <= MAX_ALLOC_BUF_SIZE).
Proof.
  induction cs as [|c cs IH]; intros b b' F; cbn [append_text_values map concat].
  { rewrite app_nil_r. split; [intros [= <-]; split; [reflexivity|congruence]|intros [-> _]; reflexivity]. }
  apply Forall_cons_iff in F as [Hc F]. destruct (append_text_value b c) as [b1|] eqn:E1.
  - apply text_value_ok in E1 as [-> L]; [|exact Hc]. rewrite (IH _ _ F), <- app_assoc. split; intros [-> H]; split; auto.
    + intros _. destruct cs as [|c2 cs]; [cbn [map concat]; rewrite app_nil_r; exact L|]. apply H. discriminate.
    + intros _. apply H. discriminate.
  - split; [discriminate|]. intros [-> H]. exfalso. specialize (H ltac:(discriminate)).
    assert (append_text_value b c = Some (b ++ cell_bytes c)); [|congruence].
    apply text_value_ok; [exact Hc|]. split; [reflexivity|]. rewrite !app_length in *. lia.
Qed.

(* every string in a row that fits the buffer has a length below 2^64 *)
Lemma text_row_ok cs : forall t, Z.of_nat (length (concat (map cell_bytes cs))) < 2 ^ 64 ->
  text_row (length cs) (concat (map cell_bytes cs) ++ t) = Some (map cell_text cs, t).
Proof.
  induction cs as [|c cs IH]; intros t L; [reflexivity|]. cbn [length map concat text_row] in *.
  rewrite app_length in L. rewrite <- app_assoc.
  assert (lenenc_str (cell_bytes c ++ (concat (map cell_bytes cs) ++ t)) = Some (cell_text c, concat (map cell_bytes cs) ++ t)) as ->.
  { unfold cell_bytes in *. destruct (cell_text c) as [s|]; [|reflexivity]. unfold str_bytes in *. rewrite <- app_assoc. apply lenenc_str_app.
    rewrite app_length in L. lia. }
  rewrite IH by lia. reflexivity.
Qed.

(* ---- packets ---- *)
Lemma set3_ok pre x y z t len : set3 (pre ++ x :: y :: z :: t) (length pre) len = pre ++ le_bytes 3 len ++ t.
Proof.
  unfold set3. rewrite bytes3, firstn_app, firstn_all, Nat.sub_diag, firstn_O, app_nil_r. do 2 f_equal.
  rewrite skipn_app. rewrite skipn_all2 by lia. cbn [app]. replace (length pre + 3 - length pre)%nat with 3%nat by lia. reflexivity.
Qed.

Lemma cut_ok fuel filler : forall pre x y z body pid r,
  cut_packets fuel (pre ++ [x; y; z; pid mod 256] ++ body) (length pre) (Z.of_nat (length body)) pid filler = Some r ->
  fst r = pre ++ send fuel pid body /\
  (forall t, message fuel pid (send fuel pid body ++ t) = Some (body, snd r, t)).
Proof.
  induction fuel as [|f IH]; intros pre x y z body pid r H; [discriminate|]. cbn [cut_packets] in H.
  unfold PACKET_LEN_MAX in H. destruct (Z.leb_spec 0xffffff (Z.of_nat (length body))) as [L|L].
  - set (M := Z.to_nat 0xffffff) in *.
    assert (HM : (M <= length body)%nat) by lia.
    assert (ME : Z.of_nat M = 0xffffff) by (unfold M; lia).
    assert (Z.to_nat (0xffffff + 4) = M + 4)%nat as E4 by lia. rewrite E4 in H. clearbody M.
    set (b1 := firstn M body) in *. set (b2 := skipn M body).
    assert (Eb : body = b1 ++ b2) by (unfold b1, b2; rewrite firstn_skipn; reflexivity).
    assert (L1 : length b1 = M) by (unfold b1; rewrite firstn_length; lia).
    assert (L2 : Z.of_nat (length body) - 0xffffff = Z.of_nat (length b2)) by (unfold b2; rewrite skipn_length; lia).
    cbn [app] in H. rewrite set3_ok in H. unfold insert_at in H.
    match type of H with context [if ?c then _ else _] => destruct c; [|discriminate] end.
    cbv iota in H. rewrite Eb in H at 1 2.
    set (pre2 := pre ++ le_bytes 3 0xffffff ++ [pid mod 256] ++ b1).
    assert (P2 : (length pre + (M + 4))%nat = length pre2).
    { unfold pre2. rewrite !app_length, le_bytes_length, L1. cbn [length]. lia. }
    rewrite P2 in H. 
    assert (Ex : pre ++ le_bytes 3 0xffffff ++ pid mod 256 :: b1 ++ b2 = pre2 ++ b2).
    { unfold pre2. rewrite <- !app_assoc. reflexivity. }
    rewrite Ex in H. rewrite firstn_app, firstn_all, Nat.sub_diag, firstn_O, app_nil_r in H.
    rewrite skipn_app, skipn_all, Nat.sub_diag in H. cbn [app skipn] in H.
    rewrite land_255, L2 in H. apply (IH pre2 filler 0 0 b2 (pid + 1) r) in H as [H1 H2].
    assert (Es : send (S f) pid body = le_bytes 3 0xffffff ++ [pid mod 256] ++ b1 ++ send f (pid + 1) b2).
    { cbn [send]. destruct (Z.leb_spec 0xffffff (Z.of_nat (length body))); [|lia]. unfold b1, b2. replace (Z.to_nat 16777215) with M by lia. reflexivity. }
    rewrite Es. split.
    + rewrite H1. unfold pre2. rewrite <- !app_assoc. reflexivity.
    + intros t. rewrite <- !app_assoc. cbn [message]. rewrite fixed_int_app. change (0xffffff mod 256 ^ Z.of_nat 3) with 0xffffff.
      cbn [app]. rewrite Z.eqb_refl. cbn [negb]. replace (Z.to_nat 16777215) with M by lia.
      rewrite take_app by exact L1. change (16777215 =? 16777215) with true. cbv iota. rewrite H2. rewrite <- Eb. reflexivity.
  - injection H as <-. cbn [fst snd app]. rewrite set3_ok.
    assert (Es : send (S f) pid body = le_bytes 3 (Z.of_nat (length body)) ++ [pid mod 256] ++ body).
    { cbn [send]. destruct (Z.leb_spec 0xffffff (Z.of_nat (length body))); [lia|]. reflexivity. }
    rewrite Es. split; [reflexivity|]. intros t. rewrite <- !app_assoc. cbn [message]. rewrite fixed_int_app.
    rewrite (Z.mod_small (Z.of_nat (length body))) by (change (256 ^ Z.of_nat 3) with 16777216; lia). cbn [app]. rewrite Z.eqb_refl. cbn [negb].
    rewrite Nat2Z.id, take_app by reflexivity. destruct (Z.eqb_spec (Z.of_nat (length body)) 16777215); [lia|]. reflexivity.
Qed.

(* room for the headers inserted *)
Lemma cut_runs fuel filler : forall pre x y z body pid, (length body < fuel)%nat ->
  Z.of_nat (length pre + 4 + length body) + 4 * (Z.of_nat (length body) / 0xffffff) <= MAX_ALLOC_BUF_SIZE ->
  exists r, cut_packets fuel (pre ++ [x; y; z; pid mod 256] ++ body) (length pre) (Z.of_nat (length body)) pid filler = Some r.
Proof.
  induction fuel as [|f IH]; intros pre x y z body pid F L; [lia|]. cbn [cut_packets].
  unfold PACKET_LEN_MAX. destruct (Z.leb_spec 0xffffff (Z.of_nat (length body))) as [G|G]; [|eauto].
  set (M := Z.to_nat 0xffffff) in *. assert (HM : (M <= length body)%nat) by lia.
  assert (ME : Z.of_nat M = 0xffffff) by (unfold M; lia).
  assert (Z.to_nat (0xffffff + 4) = M + 4)%nat as E4 by lia. rewrite E4. clearbody M.
  set (b1 := firstn M body) in *. set (b2 := skipn M body).
  assert (Eb : body = b1 ++ b2) by (unfold b1, b2; rewrite firstn_skipn; reflexivity).
  assert (L1 : length b1 = M) by (unfold b1; rewrite firstn_length; lia).
  assert (L2 : Z.of_nat (length body) - 0xffffff = Z.of_nat (length b2)) by (unfold b2; rewrite skipn_length; lia).
  assert (Q : Z.of_nat (length body) / 0xffffff = 1 + Z.of_nat (length b2) / 0xffffff).
  { rewrite <- L2. replace (Z.of_nat (length body)) with (Z.of_nat (length body) - 16777215 + 1 * 16777215) at 1 by lia.
    rewrite Z.div_add by lia. lia. }
  pose proof (Z.div_pos (Z.of_nat (length b2)) 0xffffff ltac:(lia) ltac:(lia)) as Pq.
  cbn [app]. rewrite set3_ok. unfold insert_at.
  match goal with |- context [if ?c then _ else _] => destruct c eqn:Ec end.
  2:{ apply Z.leb_gt in Ec. rewrite !app_length, le_bytes_length in Ec. cbn [length] in Ec. exfalso. unfold MAX_ALLOC_BUF_SIZE in *. lia. }
  set (pre2 := pre ++ le_bytes 3 0xffffff ++ [pid mod 256] ++ b1).
  assert (P2 : (length pre + (M + 4))%nat = length pre2).
  { unfold pre2. rewrite !app_length, le_bytes_length, L1. cbn [length]. lia. }
  rewrite P2.
  assert (Ex : pre ++ le_bytes 3 0xffffff ++ pid mod 256 :: body = pre2 ++ b2).
  { rewrite Eb. unfold pre2. rewrite <- !app_assoc. reflexivity. }
  rewrite Ex. rewrite firstn_app, firstn_all, Nat.sub_diag, firstn_O, app_nil_r.
  rewrite skipn_app, skipn_all, Nat.sub_diag. cbn [app skipn]. rewrite land_255, L2.
  apply (IH pre2 filler 0 0 b2 (pid + 1)).
  - unfold b2. rewrite skipn_length. lia.
  - rewrite <- P2. unfold MAX_ALLOC_BUF_SIZE in *. lia.
Qed.

Lemma take_some n s a t : take n s = Some (a, t) -> s = a ++ t /\ length a = n.
Proof.
  unfold take. destruct (Nat.leb_spec n (length s)); [|discriminate]. intros [= <- <-]. rewrite firstn_skipn, firstn_length. split; [reflexivity|lia].
Qed.
Lemma fixed_int_some n s v t : fixed_int n s = Some (v, t) -> (length s = n + length t)%nat.
Proof.
  unfold fixed_int. destruct (take n s) as [[a r]|] eqn:E; [|discriminate]. intros [= _ <-]. apply take_some in E as [-> L].
  rewrite app_length. lia.
Qed.
Lemma message_fuel f : forall seq s r f', message f seq s = Some r -> (length s < f')%nat -> message f' seq s = Some r.
Proof.
  induction f as [|f IH]; intros seq s r f' H L; [discriminate|]. destruct f' as [|f']; [lia|]. cbn [message] in *.
  destruct (fixed_int 3 s) as [[n t]|] eqn:E1; [|discriminate]. apply fixed_int_some in E1.
  destruct t as [|q t']; [discriminate|]. destruct (negb (q =? seq mod 256)); [discriminate|].
  destruct (take (Z.to_nat n) t') as [[p u]|] eqn:E2; [|discriminate]. apply take_some in E2 as [-> L2].
  destruct (n =? 0xffffff); [|exact H]. destruct (message f (seq + 1) u) as [[[p' q'] r']|] eqn:E3; [|discriminate].
  rewrite (IH _ _ _ f' E3); [exact H|]. cbn [length] in E1. rewrite app_length in E1. lia.
Qed.
Lemma message_read f seq s r : message f seq s = Some r -> read_message seq s = Some r.
Proof. intros H. eapply message_fuel; [exact H|lia]. Qed.

Lemma text_row_packets b pid cs b' pid' : Forall cell_ok cs -> pack_text_row b pid cs = Some (b', pid') ->
  exists frames body, b' = b ++ frames /\ (forall t, read_message (pid + 1) (frames ++ t) = Some (body, pid', t)) /\
    text_row (length cs) body = Some (map cell_text cs, []).
Proof.
  intros F H. unfold pack_text_row in H. rewrite land_255 in H.
  destruct (append b [1; 0; 0; (pid + 1) mod 256]) as [b1|] eqn:E1; [|discriminate].
  apply append_ok in E1 as [-> L1]. destruct (append_text_values _ cs) as [b2|] eqn:E2; [|discriminate].
  apply text_values_ok in E2 as [-> L2]; [|exact F]. rewrite <- app_assoc in H, L2.
  set (body := concat (map cell_bytes cs)) in *.
  replace (length (b ++ [1; 0; 0; (pid + 1) mod 256]%Z ++ body) - length b - 4)%nat with (length body) in H
    by (rewrite !app_length; cbn [length]; lia).
  apply cut_ok in H as [H1 H2]. cbn [fst snd] in *. exists (send (S (length (b ++ [1; 0; 0; (pid + 1) mod 256] ++ body))) (pid + 1) body), body.
  split; [exact H1|]. split.
  - intros t. eapply message_read. apply H2.
  - rewrite <- (app_nil_r body). apply text_row_ok. fold body.
    destruct cs as [|c cs']; [cbn in body; unfold body; cbn; lia|]. specialize (L2 ltac:(discriminate)).
    rewrite !app_length in L2. unfold MAX_ALLOC_BUF_SIZE in L2. change (2 ^ 31) with 2147483648 in L2. lia.
Qed.
Lemma text_row_runs b pid cs : Forall cell_ok cs ->
  Z.of_nat (length b + 4 + length (concat (map cell_bytes cs))) + 4 * (Z.of_nat (length (concat (map cell_bytes cs))) / 0xffffff) <= MAX_ALLOC_BUF_SIZE ->
  exists r, pack_text_row b pid cs = Some r.
Proof.
  intros F L. set (body := concat (map cell_bytes cs)) in *.
  pose proof (Z.div_pos (Z.of_nat (length body)) 0xffffff ltac:(lia) ltac:(lia)) as P.
  unfold pack_text_row. rewrite land_255.
  assert (append b [1; 0; 0; (pid + 1) mod 256] = Some (b ++ [1; 0; 0; (pid + 1) mod 256])) as ->.
  { apply append_ok. split; [reflexivity|]. rewrite app_length. cbn [length]. lia. }
  assert (append_text_values (b ++ [1; 0; 0; (pid + 1) mod 256]) cs = Some ((b ++ [1; 0; 0; (pid + 1) mod 256]) ++ body)) as ->.
  { apply text_values_ok; [exact F|]. split; [reflexivity|]. intros _. fold body. rewrite !app_length. cbn [length]. lia. }
  rewrite <- app_assoc.
  replace (length (b ++ [1; 0; 0; (pid + 1) mod 256]%Z ++ body) - length b - 4)%nat with (length body)
    by (rewrite !app_length; cbn [length]; lia).
  apply cut_runs; [rewrite !app_length; cbn [length]; lia|exact L].
Qed.

(* one packet per value: fine below 2^24-1 bytes *)
Lemma send_append_ok b data pid b' : network_queue_send_append b data pid = Some b' ->
  Z.of_nat (length data) < 0xffffff ->
  exists frames, b' = b ++ frames /\ forall t, read_message pid (frames ++ t) = Some (data, pid, t).
Proof.
  intros H L. unfold network_queue_send_append in H. destruct data as [|x d]; [discriminate|]. set (p := x :: d) in *.
  cbv zeta in H. destruct (append b _) as [b1|] eqn:E1; [|discriminate]. apply append_ok in E1 as [-> _].
  apply append_ok in H as [-> _]. rewrite land_255, <- app_assoc.
  exists (le_bytes 3 (Z.of_nat (length p)) ++ [pid mod 256] ++ p). split; [rewrite <- bytes3; reflexivity|].
  intros t. apply (message_read 1). cbn [message]. rewrite <- !app_assoc, fixed_int_app.
  rewrite (Z.mod_small (Z.of_nat (length p))) by (change (256 ^ Z.of_nat 3) with 16777216; lia).
  cbn [app]. rewrite Z.eqb_refl. cbn [negb]. rewrite Nat2Z.id. change (x :: d ++ t) with (p ++ t).
  rewrite take_app by reflexivity. destruct (Z.eqb_spec (Z.of_nat (length p)) 16777215); [lia|]. reflexivity.
Qed.

(* rows of SHOW: the empty string arrives as NULL *)
Definition show_text (s : list Z) : option (list Z) := match s with [] => None | _ => Some s end.
Definition show_bytes (s : list Z) : list Z := match s with [] => [0xfb] | _ => str_bytes s end.
Lemma make_row_ok row : forall b b', make_row_values b row = Some b' ->
  b' = b ++ concat (map show_bytes row) /\ (row <> [] -> Z.of_nat (length (b ++ concat (map show_bytes row))) <= MAX_ALLOC_BUF_SIZE).
Proof.
  induction row as [|s row IH]; intros b b' H; cbn [make_row_values map concat] in *.
  { injection H as <-. rewrite app_nil_r. split; [reflexivity|congruence]. }
  assert (exists b1, append b (show_bytes s) = Some b1 /\ make_row_values b1 row = Some b') as (b1&E1&E2).
  { destruct s as [|x s].
    - destruct (append b [251]) as [b1|] eqn:E; [|discriminate]. exists b1. split; [exact E|exact H].
    - set (p := x :: s) in *. destruct (append b (length_coded_binary (Z.of_nat (length p)))) as [b1|] eqn:E; [|discriminate].
      destruct (append b1 p) as [b2|] eqn:E2; [|discriminate]. exists b2. split; [|exact H].
      apply append_ok in E as [-> _]. apply append_ok in E2 as [-> L]. apply append_ok.
      unfold show_bytes, p, str_bytes. fold p. rewrite <- length_coded_lenenc by lia. rewrite <- app_assoc in *. split; [reflexivity|exact L]. }
  apply append_ok in E1 as [-> L]. destruct (IH _ _ E2) as [-> L2]. rewrite <- app_assoc in *. split; [reflexivity|].
  intros _. destruct row as [|s2 row]; [cbn [map concat]; rewrite app_nil_r; exact L|]. apply L2. discriminate.
Qed.
Lemma make_row_reads row : forall t, Z.of_nat (length (concat (map show_bytes row))) < 2 ^ 64 ->
  text_row (length row) (concat (map show_bytes row) ++ t) = Some (map show_text row, t).
Proof.
  induction row as [|s row IH]; intros t L; [reflexivity|]. cbn [length map concat text_row] in *.
  rewrite app_length in L. rewrite <- app_assoc.
  assert (lenenc_str (show_bytes s ++ (concat (map show_bytes row) ++ t)) = Some (show_text s, concat (map show_bytes row) ++ t)) as ->.
  { unfold show_bytes, show_text in *. destruct s as [|x s]; [reflexivity|]. unfold str_bytes in *. rewrite <- app_assoc. apply lenenc_str_app.
    rewrite app_length in L. lia. }
  rewrite IH by lia. reflexivity.
Qed.
