From Verif.Date Require Import Model TextModel Spec Reading Tables ProofsCal ProofsTime ProofsPack ProofsDur ProofsText.
Local Open Scope Z_scope.

(* ---------- TIME text ---------- *)

Fixpoint tloop (s : list Z) (idx : nat) (hb hd : bool) : nat * bool * bool :=
  match s with
  | [] => (idx, hb, hd)
  | c :: s' =>
    let hb := if c =? 32 then true else hb in
    let hd := if (c =? 32) || (c =? 58) then true else hd in
    if c =? 46 then (idx, hb, hd) else tloop s' (S idx) hb hd
  end.
Lemma time_loop_list s n idx hb hd : (idx + n <= length s)%nat ->
  time_loop s n idx hb hd = tloop (firstn n (skipn idx s)) idx hb hd.
Proof.
  revert idx hb hd; induction n as [|n IH]; intros idx hb hd Hl; [reflexivity|].
  cbn [time_loop]. unfold at0.
  assert (E : skipn idx s = nth idx s 0 :: skipn (S idx) s).
  { clear - Hl. revert idx Hl. induction s as [|b s IH]; intros idx Hl; [cbn in Hl; lia|].
    destruct idx; [reflexivity|]. cbn [skipn nth]. apply IH. cbn in Hl; lia. }
  rewrite E. cbn [firstn tloop]. destruct (nth idx s 0 =? 46); [reflexivity|]. apply IH; lia.
Qed.
Lemma tloop_digits s r idx hb hd : Forall isd s -> tloop (s ++ r) idx hb hd = tloop r (idx + length s) hb hd.
Proof.
  intros F. revert idx; induction F as [|c s Hc F IH]; intros idx; [cbn; rewrite Nat.add_0_r; reflexivity|].
  cbn [app tloop length]. rewrite (isd_neq c 46), (isd_neq c 32), (isd_neq c 58) by (auto; lia). cbn [orb].
  rewrite IH. f_equal. lia.
Qed.
Lemma tloop_colon r idx hb hd : tloop (58 :: r) idx hb hd = tloop r (S idx) hb true.
Proof. reflexivity. Qed.

Lemma scan_int_dir s r ds : Forall isd s -> (1 <= length s <= 4)%nat ->
  match r with c :: _ => is_digit c = false | [] => True end ->
  sscanf (DInt 100 :: ds) (s ++ r) = dval s :: sscanf ds r.
Proof.
  intros F Hl Hr. cbn [sscanf]. rewrite scan_int_run by (auto; lia). pose proof (dval_bound s F).
  assert (10 ^ Z.of_nat (length s) <= 10 ^ 4) by (apply Z.pow_le_mono_r; lia).
  rewrite Z.min_l, Z.max_r by lia. rewrite i32_id by lia. reflexivity.
Qed.
Lemma scan_uint_dir s r ds : Forall isd s -> length s = 2%nat ->
  sscanf (DUint 2 :: ds) (s ++ r) = dval s :: sscanf ds r.
Proof.
  intros F Hl. cbn [sscanf]. rewrite scan_int_run by (auto; lia). pose proof (dval_bound s F) as B. rewrite Hl in B.
  change (10 ^ Z.of_nat 2) with 100 in B. rewrite Z.abs_eq by lia.
  destruct (Z.ltb_spec (dval s) (2 ^ 64)); [|lia]. rewrite i32_id by lia. reflexivity.
Qed.
Lemma fmt_dval w n : 0 <= n < 10 ^ 10 -> dval (fmt w n) = n.
Proof.
  intros Hn. unfold fmt. rewrite fixed_dval. apply Z.mod_small. split; [lia|].
  assert (K : forall f m, 0 <= m < 10 ^ Z.of_nat (S f) -> m < 10 ^ Z.of_nat (ndigits f m)).
  { induction f as [|f IH]; intros m Hm; [cbn in *; lia|]. cbn [ndigits]. destruct (Z.ltb_spec m 10); [cbn; lia|].
    rewrite Nat2Z.inj_succ, Z.pow_succ_r in Hm by lia.
    assert (0 <= m / 10 < 10 ^ Z.of_nat (S f)) by (split; [apply Z.div_pos; lia|apply Z.div_lt_upper_bound; lia]).
    specialize (IH _ H0). rewrite Nat2Z.inj_succ, Z.pow_succ_r by lia.
    pose proof (Z.div_mod m 10 ltac:(lia)). pose proof (Z.mod_pos_bound m 10 ltac:(lia)). lia. }
  specialize (K 10%nat n). change (10 ^ Z.of_nat 11) with 100000000000 in K. specialize (K ltac:(lia)).
  eapply Z.lt_le_trans; [exact K|]. apply Z.pow_le_mono_r; lia.
Qed.

Theorem time_text h mi s neg : time_ok h mi s ->
  str_to_time (time_to_str (pack_time h mi s neg)) = Some (pack_time h mi s neg).
Proof.
  intros T. pose proof T as (Hh & Hm & Hs). unfold time_to_str. rewrite unpack_time_num by auto.
  set (neg' := neg && (0 <? h + mi + s)).
  assert (EN : pack_time h mi s neg = pack_time h mi s neg').
  { subst neg'. destruct neg; [|reflexivity]. cbn [andb]. destruct (Z.ltb_spec 0 (h + mi + s)); [reflexivity|].
    assert (h = 0 /\ mi = 0 /\ s = 0) as (-> & -> & ->) by lia. reflexivity. }
  rewrite EN. clearbody neg'. clear EN neg.
  assert (P2 : 10 ^ Z.of_nat 2 = 100) by reflexivity.
  rewrite (fmt_fixed 2 mi), (fmt_fixed 2 s) by lia.
  set (H := fmt 2 h).
  assert (FH : Forall isd H) by apply fixed_isd.
  assert (LH : (2 <= length H <= 4)%nat).
  { subst H. unfold fmt. rewrite fixed_length. assert (ndigits 10 h <= 4)%nat by (apply ndigits_le; [lia|lia|]; change (10 ^ Z.of_nat 4) with 10000; lia). lia. }
  assert (VH : dval H = h) by (apply fmt_dval; lia). clearbody H.
  set (body := H ++ [58] ++ fixed 2 mi ++ [58] ++ fixed 2 s).
  assert (LB : length body = (length H + 6)%nat).
  { subst body. rewrite !app_length, !fixed_length. cbn. lia. }
  assert (D : drop_blanks ((if neg' then [45] else []) ++ body) = (if neg' then [45] else []) ++ body /\
     match (if neg' then [45] else []) ++ body with c :: s' => if c =? 45 then (true, s') else (false, (if neg' then [45] else []) ++ body) | [] => (false, (if neg' then [45] else []) ++ body) end = (neg', body)).
  { destruct neg'; [split; reflexivity|]. cbn [app]. subst body. destruct H as [|c H]; [cbn in LH; lia|]. inversion FH; subst.
    cbn [app drop_blanks]. rewrite (isd_neq c 32), (isd_neq c 45) by (auto; lia). split; reflexivity. }
  destruct D as [D1 D2]. unfold str_to_time. rewrite D1, D2. clear D1 D2.
  rewrite Nat.min_l by lia. rewrite time_loop_list by lia. cbn [skipn]. rewrite firstn_all.
  assert (TL : tloop body 0 false false = (length body, false, true)).
  { subst body. rewrite tloop_digits by auto. cbn [app]. rewrite tloop_colon, tloop_digits by apply fixed_isd. cbn [app].
    rewrite tloop_colon. rewrite <- (app_nil_r (fixed 2 s)) at 1. rewrite tloop_digits by apply fixed_isd. cbn [tloop].
    cbn [app] in LB. rewrite LB, !fixed_length. f_equal. f_equal. lia. }
  rewrite TL. destruct (Nat.leb_spec 12 (length body)); [lia|]. cbv beta iota.
  assert (SC : sscanf [DInt 100; DLit 58; DUint 2; DLit 58; DUint 2] body = [h; mi; s]).
  { subst body. rewrite scan_int_dir by (auto; try lia; reflexivity). rewrite VH. f_equal. cbn [app].
    change (sscanf (DLit 58 :: DUint 2 :: DLit 58 :: [DUint 2]) (58 :: fixed 2 mi ++ 58 :: fixed 2 s))
      with (sscanf (DUint 2 :: DLit 58 :: [DUint 2]) (fixed 2 mi ++ 58 :: fixed 2 s)).
    rewrite scan_uint_dir by (auto using fixed_isd, fixed_length).
    change (sscanf (DLit 58 :: [DUint 2]) (58 :: fixed 2 s)) with (sscanf [DUint 2] (fixed 2 s)).
    rewrite <- (app_nil_r (fixed 2 s)) at 1. rewrite scan_uint_dir by (auto using fixed_isd, fixed_length).
    rewrite !fixed_dval, P2. rewrite !Z.mod_small by lia. reflexivity. }
  rewrite SC. unfold at0. cbn [nth]. f_equal. change (0 * 24) with 0. rewrite (i32_id 0), Z.add_0_r by lia. rewrite (i32_id h) by lia.
  change (0 <? 0) with false. destruct (Z.ltb_spec h 0); [lia|]. destruct (Z.ltb_spec mi 0); [lia|]. destruct (Z.ltb_spec 59 mi); [lia|].
  destruct (Z.ltb_spec s 0); [lia|]. destruct (Z.ltb_spec 59 s); [lia|]. reflexivity.
Qed.

(* ---------- independence of the bytes after the text ---------- *)

Theorem parse_local s tail tail' : match s with c :: _ => c <> 32 | [] => False end ->
  str_to_datetime (s ++ tail) (length s) = str_to_datetime (s ++ tail') (length s) /\
  exists r, str_to_datetime (s ++ tail) (length s) = Some r.
Proof.
  intros Hs. destruct s as [|c s]; [contradiction|].
  assert (K : forall t, str_to_datetime ((c :: s) ++ t) (length (c :: s)) =
     Some (parse_buf (firstn (Nat.min (length (c :: s)) 26) (c :: s) ++ repeat 0 (27 - Nat.min (length (c :: s)) 26)) (Nat.min (length (c :: s)) 26))).
  { intros t. unfold str_to_datetime. cbn [app skip_blanks]. destruct (Z.eqb_spec c 32); [contradiction|].
    set (L := length (c :: s)). change (c :: s ++ t) with ((c :: s) ++ t). rewrite app_length. fold L.
    destruct (Nat.ltb_spec (L + length t) (Nat.min L 26)); [lia|]. do 2 f_equal. f_equal.
    rewrite firstn_app. fold L. replace (Nat.min L 26 - L)%nat with 0%nat by lia. cbn [firstn]. apply app_nil_r. }
  rewrite !K. split; [reflexivity|eauto].
Qed.

(* ---------- the result is zero or in range ---------- *)


Lemma starts_minus_patch s i : starts_minus s = false -> starts_minus (firstn i s ++ 48 :: skipn (S i) s) = false.
Proof.
  unfold starts_minus. revert i; induction s as [|c s IH]; intros i; [destruct i; reflexivity|].
  destruct i as [|i]; [reflexivity|]. cbn [firstn skipn app skip_space]. destruct (is_space c); [apply IH|auto].
Qed.
Lemma dot_minus_patch s i : dot_minus s = false -> dot_minus (firstn i s ++ 48 :: skipn (S i) s) = false.
Proof.
  revert i; induction s as [|c s IH]; intros i Hs; [destruct i; reflexivity|].
  cbn [dot_minus] in Hs. apply orb_false_iff in Hs as [H1 H2].
  destruct i as [|i].
  2: change (firstn (S i) (c :: s) ++ 48 :: skipn (S (S i)) (c :: s)) with (c :: firstn i s ++ 48 :: skipn (S i) s).
  all: cbn [dot_minus].
  - cbn [firstn skipn app dot_minus]. change (48 =? 46) with false. cbn [andb orb]. exact H2.
  - rewrite (IH i H2). apply orb_false_iff; split; [|reflexivity].
    destruct (c =? 46); [|reflexivity]. cbn [andb] in *. apply starts_minus_patch; auto.
Qed.
Lemma pad_ok k i b : (starts_minus b = false -> starts_minus (pad_loop k i b) = false) /\
  (dot_minus b = false -> dot_minus (pad_loop k i b) = false).
Proof.
  revert i b; induction k as [|k IH]; intros i b; [cbn; tauto|]. cbn [pad_loop]. destruct (i <? 26)%nat; [|tauto].
  destruct (IH (S i) (if is_digit (at0 b i) then b else firstn i b ++ 48 :: skipn (S i) b)) as [A B].
  destruct (is_digit (at0 b i)); [tauto|]. split; intros H; [apply A, starts_minus_patch|apply B, dot_minus_patch]; auto.
Qed.
Lemma cstr_prefix s : exists t, s = cstr s ++ t.
Proof.
  induction s as [|c s [t IH]]; [exists []; reflexivity|]. cbn [cstr]. destruct (c =? 0).
  - exists (c :: s). reflexivity.
  - exists t. cbn [app]. f_equal. exact IH.
Qed.
Lemma starts_minus_prefix s t : starts_minus (s ++ t) = false -> starts_minus s = false.
Proof.
  unfold starts_minus. induction s as [|c s IH]; [reflexivity|]. cbn [app skip_space]. destruct (is_space c); auto.
Qed.
Lemma dot_minus_prefix s t : dot_minus (s ++ t) = false -> dot_minus s = false.
Proof.
  induction s as [|c s IH]; [reflexivity|]. cbn [app dot_minus]. intros [H1 H2]%orb_false_iff. rewrite (IH H2).
  destruct (c =? 46); [|reflexivity]. cbn [andb] in *. rewrite (starts_minus_prefix _ _ H1). reflexivity.
Qed.
Lemma dot_minus_suffix s t : dot_minus (s ++ t) = false -> dot_minus t = false.
Proof. induction s as [|c s IH]; [auto|]. cbn [app dot_minus]. intros [_ H2]%orb_false_iff. auto. Qed.

Lemma skip_space_suffix s : exists p, s = p ++ skip_space s.
Proof.
  induction s as [|c s [p IH]]; [exists []; reflexivity|]. cbn [skip_space]. destruct (is_space c).
  - exists (c :: p). cbn [app]. f_equal. exact IH.
  - exists []. reflexivity.
Qed.
Lemma skip_class_suffix s : exists p, s = p ++ skip_class s.
Proof.
  induction s as [|c s [p IH]]; [exists []; reflexivity|]. cbn [skip_class]. destruct (is_alnum_lower c).
  - exists []. reflexivity.
  - exists (c :: p). cbn [app]. f_equal. exact IH.
Qed.
Lemma take_digits_facts w acc s n v r : 0 <= acc -> take_digits w acc s = (n, v, r) ->
  (exists p, s = p ++ r) /\ 0 <= v < (acc + 1) * 10 ^ Z.of_nat w.
Proof.
  revert acc s n v r; induction w as [|w IH]; intros acc s n v r Ha E.
  - cbn in E. inversion E; subst. split; [exists []; reflexivity|]. cbn; lia.
  - assert (Hp : 0 < 10 ^ Z.of_nat w) by (apply Z.pow_pos_nonneg; lia).
    assert (E10 : 10 ^ Z.of_nat (S w) = 10 * 10 ^ Z.of_nat w) by (rewrite Nat2Z.inj_succ, Z.pow_succ_r; lia).
    assert (KEEP : (0%nat, acc, s) = (n, v, r) -> (exists p, s = p ++ r) /\ 0 <= v < (acc + 1) * 10 ^ Z.of_nat (S w)).
    { intros E'. inversion E'; subst. split; [exists []; reflexivity|]. rewrite E10. nia. }
    destruct s as [|c s]; cbn [take_digits] in E; [auto|].
    destruct (is_digit c) eqn:Dg; [|auto].
    destruct (take_digits w (acc * 10 + (c - 48)) s) as [[n' v'] r'] eqn:E'. inversion E; subst.
    unfold is_digit in Dg. apply andb_true_iff in Dg as [D1 D2]. apply Z.leb_le in D1, D2.
    assert (HA : 0 <= acc * 10 + (c - 48)) by lia. destruct (IH _ _ _ _ _ HA E') as [[p ->] B]. split; [exists (c :: p); reflexivity|]. rewrite E10. nia.
Qed.
Lemma scan_int_facts w s v r : scan_int w s = Some (v, r) ->
  (exists p, s = p ++ r) /\ - 10 ^ Z.of_nat w < v < 10 ^ Z.of_nat w /\ (starts_minus s = false -> 0 <= v).
Proof.
  unfold scan_int, starts_minus. destruct (skip_space_suffix s) as [p0 E0]. set (s1 := skip_space s) in *.
  intros E.
  set (X := match w with O => (false, w, s1) | S k => match s1 with [] => (false, w, s1) | c :: s' => if c =? 45 then (true, k, s') else if c =? 43 then (false, k, s') else (false, w, s1) end end).
  assert (EX : match X with (neg, w', s2) => (let '(n, v0, r0) := take_digits w' 0 s2 in match n with O => None | S _ => Some (if neg then - v0 else v0, r0) end) end = Some (v, r)).
  { subst X. destruct w; exact E. }
  clear E.
  assert (HX : exists neg w' s2, X = (neg, w', s2) /\ (w' <= w)%nat /\ (exists q, s1 = q ++ s2) /\
     (neg = true -> match s1 with c :: _ => c =? 45 | [] => false end = true)).
  { subst X. destruct w as [|k]; [exists false, 0%nat, s1; split; [reflexivity|]; split; [lia|]; split; [exists []; reflexivity|discriminate]|].
    destruct s1 as [|c s']; [exists false, (S k), []; split; [reflexivity|]; split; [lia|]; split; [exists []; reflexivity|discriminate]|].
    destruct (c =? 45) eqn:E1; [exists true, k, s'; split; [reflexivity|]; split; [lia|]; split; [exists [c]; reflexivity|auto]|].
    destruct (c =? 43); [exists false, k, s'; split; [reflexivity|]; split; [lia|]; split; [exists [c]; reflexivity|discriminate]|].
    exists false, (S k), (c :: s'); split; [reflexivity|]; split; [lia|]; split; [exists []; reflexivity|discriminate]. }
  destruct HX as (neg & w' & s2 & HX & Hw & [q Eq] & Hn). rewrite HX in EX.
  destruct (take_digits w' 0 s2) as [[n v0] r0] eqn:ET. destruct n; [discriminate|]. inversion EX; subst v r.
  destruct (take_digits_facts w' 0 s2 (S n) v0 r0 ltac:(lia) ET) as [[p Ep] B].
  assert (10 ^ Z.of_nat w' <= 10 ^ Z.of_nat w) by (apply Z.pow_le_mono_r; lia).
  split; [exists (p0 ++ q ++ p); rewrite <- !app_assoc, <- Ep, <- Eq; auto|]. split; [destruct neg; lia|].
  intros HF. destruct neg; [rewrite Hn in HF by reflexivity; discriminate|lia].
Qed.

(* What the conversions deliver: all values are unsigned, the first and (after the dot) the last bounded *)
Definition vals_ok (w0 : Z) (vs : list Z) : Prop :=
  0 <= at0 vs 0 < 10 ^ w0 /\ (forall i, 0 <= at0 vs i) /\ 0 <= at0 vs 6 < 1000000.
Lemma u64_nonneg x : 0 <= u64 x.
Proof. apply Z.mod_pos_bound. lia. Qed.
Lemma u64_le x : 0 <= x -> u64 x <= x.
Proof. intros. apply Z.mod_le; lia. Qed.
Fixpoint count (ds : list dir) : nat := match ds with [] => O | DUlong _ :: ds' => S (count ds') | _ :: ds' => count ds' end.
Lemma sscanf_nonneg ds s : Forall (fun d => match d with DInt _ | DUint _ => False | _ => True end) ds ->
  Forall (fun v => 0 <= v) (sscanf ds s) /\ (length (sscanf ds s) <= count ds)%nat.
Proof.
  intros F. revert s; induction F as [|d ds Hd F IH]; intros s; [split; [constructor|cbn; lia]|].
  destruct d; cbn [sscanf count] in *; try contradiction.
  - destruct (scan_int w s) as [[v r]|]; [|split; [constructor|cbn; lia]]. destruct (IH r) as [A B].
    split; [constructor; [apply u64_nonneg|auto]|cbn [length]; lia].
  - destruct s as [|c s]; [split; [constructor|cbn; lia]|]. destruct (is_alnum_lower c); [split; [constructor|cbn; lia]|]. apply IH.
  - destruct s as [|x s]; [split; [constructor|cbn; lia]|]. destruct (x =? c); [apply IH|split; [constructor|cbn; lia]].
  - apply IH.
Qed.
(* the last conversion of a format ending in the dot and a %6lu *)
Fixpoint dot_last (ds : list dir) : bool :=
  match ds with
  | [DLit c; DUlong 6] => c =? 46
  | DUlong _ :: ds' => dot_last ds'
  | DSkip :: ds' => dot_last ds'
  | _ => false
  end.
Lemma sscanf_last ds s : dot_last ds = true -> dot_minus s = false ->
  forall v, nth_error (sscanf ds s) (count ds - 1) = Some v -> 0 <= v < 1000000.
Proof.
  revert s; induction ds as [|d ds IH]; intros s HD HM v HV; [discriminate|].
  assert (BASE : d = DLit 46 -> ds = [DUlong 6] -> 0 <= v < 1000000).
  { intros -> ->. cbn [count] in HV. change (1 - 1)%nat with 0%nat in HV. cbn [sscanf] in HV.
    destruct s as [|x s]; [discriminate|]. destruct (Z.eqb_spec x 46); [subst x|discriminate].
    destruct (scan_int 6 s) as [[z r]|] eqn:E; [|discriminate]. cbn in HV. inversion HV; subst v.
    destruct (scan_int_facts _ _ _ _ E) as (_ & B & NN). cbn [dot_minus] in HM. apply orb_false_iff in HM as [H1 _].
    change (46 =? 46) with true in H1. cbn [andb] in H1. specialize (NN H1). change (10 ^ Z.of_nat 6) with 1000000 in B.
    rewrite u64_id by lia. lia. }
  destruct d; cbn [dot_last] in HD; try discriminate.
  - cbn [sscanf count] in HV. destruct (scan_int w s) as [[z r]|] eqn:E.
    + destruct (scan_int_facts _ _ _ _ E) as ([p ->] & _). apply (IH r HD (dot_minus_suffix _ _ HM)).
      assert (1 <= count ds)%nat.
      { clear - HD. revert HD. induction ds as [|d ds IH]; [discriminate|].
        destruct d; cbn [dot_last count]; try discriminate; try lia; intros; try (specialize (IH HD); lia).
        destruct ds as [|[] [|]]; try discriminate; cbn [count]; lia. }
      replace (S (count ds) - 1)%nat with (S (count ds - 1)) in HV by lia. exact HV.
    + destruct (S (count ds) - 1)%nat; discriminate.
  - cbn [sscanf count] in HV. destruct s as [|c s]; [destruct (count ds - 1)%nat; discriminate|].
    destruct (is_alnum_lower c); [destruct (count ds - 1)%nat; discriminate|].
    destruct (skip_class_suffix (c :: s)) as [p Ep]. apply (IH (skip_class (c :: s)) HD); auto.
    rewrite Ep in HM. eapply dot_minus_suffix; exact HM.
  - destruct ds as [|[] [|? ?]]; try discriminate. destruct w as [|[|[|[|[|[|[|w]]]]]]]; try discriminate. destruct (Z.eqb_spec c 46); [subst c|discriminate].
    apply BASE; reflexivity.
    destruct w as [|[|[|[|[|[|[|w]]]]]]]; discriminate.
Qed.

Lemma at0_nonneg vs i : Forall (fun v => 0 <= v) vs -> 0 <= at0 vs i.
Proof.
  intros F. unfold at0. destruct (nth_in_or_default i vs 0) as [H|H]; [|rewrite H; lia].
  rewrite Forall_forall in F. apply F; auto.
Qed.
Lemma first_bound w ds s : starts_minus s = false -> 0 <= at0 (sscanf (DUlong w :: ds) s) 0 < 10 ^ Z.of_nat w.
Proof.
  intros H. cbn [sscanf]. assert (0 < 10 ^ Z.of_nat w) by (apply Z.pow_pos_nonneg; lia).
  destruct (scan_int w s) as [[v r]|] eqn:E; [|cbn; lia]. destruct (scan_int_facts _ _ _ _ E) as (_ & B & NN).
  specialize (NN H). unfold at0; cbn [nth]. pose proof (u64_nonneg v). pose proof (u64_le v NN). lia.
Qed.
Lemma finish_range yl full vs w : (w = 2 \/ w = 4) -> vals_ok w vs -> in_range (fst (finish yl full vs)).
Proof.
  intros Hw (V0 & VN & V6). unfold finish. destruct (Z.ltb_spec 12 (at0 vs 1)); [left; reflexivity|].
  destruct (Z.ltb_spec 31 (at0 vs 2)); [left; reflexivity|]. destruct (Z.ltb_spec 23 (at0 vs 3)); [left; reflexivity|].
  destruct (Z.ltb_spec 59 (at0 vs 4)); [left; reflexivity|]. destruct (Z.ltb_spec 59 (at0 vs 5)); [left; reflexivity|]. cbn [orb fst].
  right. eexists. split; [|reflexivity]. unfold fields_ok, valid_fields, valid_tod. cbn [f_year f_month f_day f_hour f_minute f_second f_micro].
  pose proof (VN 1%nat). pose proof (VN 2%nat). pose proof (VN 3%nat). pose proof (VN 4%nat). pose proof (VN 5%nat).
  assert (0 <= at0 vs 0 < 10000) by (destruct Hw; subst w; change (10 ^ 2) with 100 in V0; change (10 ^ 4) with 10000 in V0; lia).
  split; [|lia]. destruct (yl =? 2); [|lia].
  destruct (Z.leb_spec 70 (at0 vs 0)); destruct (Z.ltb_spec (at0 vs 0) 100); cbn [andb]; try lia.
  all: destruct (Z.ltb_spec (at0 vs 0) 70); destruct (Z.ltb_spec 0 (at0 vs 0)); cbn [andb]; lia.
Qed.
Lemma vals_dot w ds s : count (DUlong w :: ds) = 7%nat -> dot_last (DUlong w :: ds) = true ->
  Forall (fun d => match d with DInt _ | DUint _ => False | _ => True end) ds ->
  starts_minus s = false -> dot_minus s = false -> vals_ok (Z.of_nat w) (sscanf (DUlong w :: ds) s).
Proof.
  intros HC HD HF HS HM. split; [apply first_bound; auto|].
  destruct (sscanf_nonneg (DUlong w :: ds) s ltac:(constructor; auto)) as [A B].
  split; [intros; apply at0_nonneg; auto|].
  pose proof (sscanf_last _ s HD HM) as L. rewrite HC in L. change (7 - 1)%nat with 6%nat in L.
  unfold at0. destruct (nth_error (sscanf (DUlong w :: ds) s) 6) as [v|] eqn:E.
  - rewrite (nth_error_nth _ _ _ E). auto.
  - rewrite nth_overflow by (apply nth_error_None; auto). lia.
Qed.
Lemma vals_short w ds s : (count (DUlong w :: ds) <= 6)%nat ->
  Forall (fun d => match d with DInt _ | DUint _ => False | _ => True end) ds ->
  starts_minus s = false -> vals_ok (Z.of_nat w) (sscanf (DUlong w :: ds) s).
Proof.
  intros HC HF HS. split; [apply first_bound; auto|].
  destruct (sscanf_nonneg (DUlong w :: ds) s ltac:(constructor; auto)) as [A B].
  split; [intros; apply at0_nonneg; auto|]. unfold at0. rewrite nth_overflow by lia. lia.
Qed.

Theorem parse_range mem len r full : str_to_datetime mem len = Some (r, full) ->
  (forall p, skip_blanks mem = Some p -> starts_minus (firstn (Nat.min len 26) p) = false /\ dot_minus (firstn (Nat.min len 26) p) = false) ->
  in_range r.
Proof.
  unfold str_to_datetime. destruct (skip_blanks mem) as [p|] eqn:EP; [|discriminate].
  destruct (length p <? Nat.min len 26)%nat eqn:EL; [discriminate|]. intros E H. destruct (H p eq_refl) as [HS HM]. clear H.
  assert (E1 : parse_buf (firstn (Nat.min len 26) p ++ repeat 0 (27 - Nat.min len 26)) (Nat.min len 26) = (r, full)) by congruence.
  clear E. set (n := Nat.min len 26) in *. set (a := firstn n p) in *.
  assert (Z0 : forall k, (starts_minus (repeat 0 k) = false) /\ dot_minus (repeat 0 k) = false).
  { induction k as [|k [I1 I2]]; [split; reflexivity|]. split; [reflexivity|]. cbn [repeat dot_minus]. exact I2. }
  assert (HS0 : starts_minus (a ++ repeat 0 (27 - n)) = false).
  { clear - HS Z0. induction a as [|c a IH]; [apply Z0|]. unfold starts_minus in *. cbn [app skip_space] in *. destruct (is_space c); auto. }
  assert (HM0 : dot_minus (a ++ repeat 0 (27 - n)) = false).
  { clear - HM Z0. induction a as [|c a IH]; [apply Z0|]. cbn [app dot_minus] in *. apply orb_false_iff in HM as [H1 H2].
    rewrite (IH H2). apply orb_false_iff; split; [|reflexivity]. destruct (c =? 46); [|reflexivity]. cbn [andb] in *.
    clear - H1 Z0. induction a as [|c a IH]; [apply Z0|]. unfold starts_minus in *. cbn [app skip_space] in *. destruct (is_space c); auto. }
  set (buf := a ++ repeat 0 (27 - n)) in *. clearbody buf. clear - HS0 HM0 E1.
  assert (EF : r = fst (parse_buf buf n)) by (rewrite E1; reflexivity). rewrite EF. clear E1 EF.
  unfold parse_buf. set (hd := if at0 buf 3 =? 45 then true else _). destruct (scan_loop hd buf n 0 0 (-1)) as [idx yl].
  set (buf' := if (idx <? n)%nat then pad_loop 6 (S idx) buf else buf).
  assert (P : starts_minus buf' = false /\ dot_minus buf' = false).
  { subst buf'. destruct (idx <? n)%nat; [|auto]. destruct (pad_ok 6 (S idx) buf); auto. }
  destruct P as [PS PM]. destruct (cstr_prefix buf') as [t Et]. rewrite Et in PS, PM.
  apply starts_minus_prefix in PS. apply dot_minus_prefix in PM. set (s := cstr buf') in *. clearbody s.
  assert (NF : forall ds, forallb (fun d => match d with DInt _ | DUint _ => false | _ => true end) ds = true ->
     Forall (fun d => match d with DInt _ | DUint _ => False | _ => True end) ds).
  { intros ds H. apply Forall_forall. intros d Hd. rewrite forallb_forall in H. specialize (H d Hd). destruct d; auto; discriminate. }
  destruct hd.
  { apply finish_range with 4; [auto|]. apply vals_dot; auto. }
  destruct (idx <=? 6)%nat. { apply finish_range with 2; [auto|]. apply vals_short; auto; cbn; lia. }
  destruct (idx =? 8)%nat. { apply finish_range with 4; [auto|]. apply vals_short; auto; cbn; lia. }
  destruct (idx =? 12)%nat. { apply finish_range with 2; [auto|]. apply vals_dot; auto. }
  destruct (idx <=? 13)%nat. { apply finish_range with 2; [auto|]. apply vals_short; auto. }
  apply finish_range with 4; [auto|]. apply vals_dot; auto.
Qed.

(* ---------- YYYYMMDD validity ---------- *)
Definition ymd (y m d : Z) : list Z := fixed 4 y ++ fixed 2 m ++ fixed 2 d.
Lemma take_num s w : Forall isd s -> (length s <= w)%nat -> snd (fst (take_digits w 0 s)) = dval s.
Proof. intros F L. rewrite <- (app_nil_r s) at 1. rewrite take_digits_run by auto. cbn [fst snd]. lia. Qed.
Lemma forallb_isd s : Forall isd s -> forallb is_digit s = true.
Proof. induction 1; [reflexivity|]. cbn [forallb]. rewrite isd_digit by auto. auto. Qed.
Theorem valid_date_iff y m d : 0 <= y < 10000 -> 0 <= m < 100 -> 0 <= d < 100 ->
  is_valid_date (ymd y m d) false = true <-> valid_date (y, m, d).
Proof.
  intros Hy Hm Hd. unfold is_valid_date, ymd.
  rewrite !app_length, !fixed_length. cbn [Nat.add Nat.eqb negb].
  assert (E8 : firstn 8 (fixed 4 y ++ fixed 2 m ++ fixed 2 d) = fixed 4 y ++ fixed 2 m ++ fixed 2 d).
  { apply firstn_all2. rewrite !app_length, !fixed_length. lia. }
  rewrite E8, forallb_isd by (apply Forall_app; split; [apply fixed_isd|apply Forall_app; split; apply fixed_isd]). cbn [negb].
  rewrite firstn_exact by apply fixed_length.
  assert (S4 : skipn 4 (fixed 4 y ++ fixed 2 m ++ fixed 2 d) = fixed 2 m ++ fixed 2 d).
  { rewrite skipn_app, skipn_all2, fixed_length by (rewrite fixed_length; lia). reflexivity. }
  assert (S6 : skipn 6 (fixed 4 y ++ fixed 2 m ++ fixed 2 d) = fixed 2 d).
  { rewrite app_assoc, skipn_app, skipn_all2, app_length, !fixed_length by (rewrite app_length, !fixed_length; lia). reflexivity. }
  rewrite S4, S6, firstn_exact by apply fixed_length. rewrite firstn_all2 by (rewrite fixed_length; lia).
  rewrite !take_num by (auto using fixed_isd; rewrite fixed_length; lia). rewrite !fixed_dval.
  change (10 ^ Z.of_nat 4) with 10000. change (10 ^ Z.of_nat 2) with 100. rewrite !Z.mod_small by lia.
  cbn [valid_date]. destruct (Z.ltb_spec m 1); [split; [discriminate|lia]|]. destruct (Z.ltb_spec 12 m); [split; [discriminate|lia]|]. cbn [orb].
  rewrite is_leap_eq.
  assert (L : (if (m =? 2) && leap y then nth (Z.to_nat (m - 1)) days_in_month 0 + 1 else nth (Z.to_nat (m - 1)) days_in_month 0) = month_len y m).
  { assert (C : m = 1 \/ m = 2 \/ m = 3 \/ m = 4 \/ m = 5 \/ m = 6 \/ m = 7 \/ m = 8 \/ m = 9 \/ m = 10 \/ m = 11 \/ m = 12) by lia.
    destruct C as [?|[?|[?|[?|[?|[?|[?|[?|[?|[?|[?|?]]]]]]]]]]]; subst m; cbv -[leap]; destruct (leap y); reflexivity. }
  rewrite L. destruct (Z.ltb_spec d 1); [split; [discriminate|lia]|]. destruct (Z.ltb_spec (month_len y m) d); [split; [discriminate|lia]|].
  split; [lia|reflexivity].
Qed.
