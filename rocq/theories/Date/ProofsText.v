From Verif.Date Require Import Model TextModel Spec Reading Tables ProofsCal ProofsTime ProofsPack ProofsDur.
Local Open Scope Z_scope.

Definition isd (c : Z) : Prop := 48 <= c <= 57.
Lemma isd_digit c : isd c -> is_digit c = true.
Proof. unfold isd, is_digit. intros. apply andb_true_iff; split; apply Z.leb_le; lia. Qed.
Lemma isd_space c : isd c -> is_space c = false.
Proof.
  unfold isd, is_space. intros. destruct (Z.eqb_spec c 32); [lia|]. cbn [orb].
  destruct (Z.leb_spec 9 c); [|lia]. destruct (Z.leb_spec c 13); [lia|reflexivity].
Qed.
Lemma isd_alnum c : isd c -> is_alnum_lower c = true.
Proof. intros. unfold is_alnum_lower. rewrite isd_digit by auto. reflexivity. Qed.
Lemma isd_neq c k : isd c -> (k < 48 \/ 57 < k) -> (c =? k) = false.
Proof. unfold isd. intros. apply Z.eqb_neq. lia. Qed.

(* decimal value of a digit list *)
Definition dval (s : list Z) : Z := fold_left (fun a c => a * 10 + (c - 48)) s 0.
Lemma fold_dval s a : fold_left (fun a c => a * 10 + (c - 48)) s a = a * 10 ^ Z.of_nat (length s) + dval s.
Proof.
  unfold dval. revert a; induction s as [|c s IH]; intros a; cbn [fold_left length].
  - rewrite Z.mul_1_r. lia.
  - rewrite IH, (IH (0 * 10 + (c - 48))). rewrite Nat2Z.inj_succ, Z.pow_succ_r by lia. lia.
Qed.
Lemma dval_app s t : dval (s ++ t) = dval s * 10 ^ Z.of_nat (length t) + dval t.
Proof. unfold dval at 1. rewrite fold_left_app. apply fold_dval. Qed.
Lemma fixed_length w n : length (fixed w n) = w.
Proof. revert n; induction w as [|w IH]; intros n; [reflexivity|]. cbn [fixed]. rewrite app_length, IH. cbn. lia. Qed.
Lemma fixed_isd w n : Forall isd (fixed w n).
Proof.
  revert n; induction w as [|w IH]; intros n; [constructor|]. cbn [fixed]. apply Forall_app; split; [auto|].
  constructor; [|constructor]. unfold isd. pose proof (Z.mod_pos_bound n 10 ltac:(lia)). lia.
Qed.
Lemma fixed_dval w n : dval (fixed w n) = n mod 10 ^ Z.of_nat w.
Proof.
  revert n; induction w as [|w IH]; intros n; [cbn; rewrite Z.mod_1_r; reflexivity|]. cbn [fixed].
  rewrite dval_app, IH. cbn [length]. change (10 ^ Z.of_nat 1) with 10. unfold dval; cbn [fold_left].
  rewrite Nat2Z.inj_succ, Z.pow_succ_r by lia.
  rewrite Z.rem_mul_r by (try lia; apply Z.pow_pos_nonneg; lia). lia.
Qed.
Lemma ndigits_le w fuel n : 0 <= n -> (1 <= w)%nat -> n < 10 ^ Z.of_nat w -> (ndigits fuel n <= w)%nat.
Proof.
  revert w n; induction fuel as [|f IH]; intros w n H0 Hw Hn; cbn [ndigits]; [lia|].
  destruct (Z.ltb_spec n 10); [lia|]. destruct w as [|[|w]]; [lia|cbn in Hn; lia|].
  apply le_n_S. apply IH; [apply Z.div_pos; lia|lia|].
  rewrite Nat2Z.inj_succ, Z.pow_succ_r in Hn by lia. apply Z.div_lt_upper_bound; lia.
Qed.
Lemma fmt_fixed w n : 0 <= n -> (1 <= w)%nat -> n < 10 ^ Z.of_nat w -> fmt w n = fixed w n.
Proof. intros. unfold fmt. rewrite Nat.max_l by (apply ndigits_le; auto). reflexivity. Qed.

(* scanning a run of digits *)
Lemma take_digits_run s r w acc : Forall isd s -> (length s <= w)%nat ->
  (length s = w \/ match r with c :: _ => is_digit c = false | [] => True end) ->
  take_digits w acc (s ++ r) = (length s, acc * 10 ^ Z.of_nat (length s) + dval s, r).
Proof.
  intros F. revert w acc; induction F as [|c s Hc F IH]; intros w acc Hl Hr.
  - cbn [app length]. unfold dval; cbn [fold_left]. rewrite Z.mul_1_r, Z.add_0_r.
    destruct w as [|w]; [destruct r; reflexivity|]. destruct r as [|x r]; [reflexivity|].
    cbn [take_digits]. destruct Hr as [Hr|Hr]; [cbn in Hr; lia|]. rewrite Hr. reflexivity.
  - destruct w as [|w]; [cbn in Hl; lia|]. cbn [app take_digits length] in *. rewrite isd_digit by auto.
    rewrite IH; [|lia|destruct Hr; [left; lia|right; auto]]. f_equal. f_equal.
    rewrite Nat2Z.inj_succ, Z.pow_succ_r by lia. change (c :: s) with ([c] ++ s). rewrite dval_app.
    unfold dval at 2; cbn [fold_left]. lia.
Qed.
Lemma scan_int_run s r w : Forall isd s -> (1 <= length s <= w)%nat ->
  (length s = w \/ match r with c :: _ => is_digit c = false | [] => True end) ->
  scan_int w (s ++ r) = Some (dval s, r).
Proof.
  intros F Hl Hr. destruct s as [|c s]; [cbn in Hl; lia|]. inversion F as [|? ? Hc F']; subst.
  unfold scan_int. cbn [app skip_space]. rewrite isd_space by auto. destruct w as [|w]; [lia|].
  rewrite (isd_neq c 45), (isd_neq c 43) by (auto; lia).
  change (c :: s ++ r) with ((c :: s) ++ r). rewrite take_digits_run by (auto; lia). cbn [length]. reflexivity.
Qed.
Lemma dval_bound s : Forall isd s -> 0 <= dval s < 10 ^ Z.of_nat (length s).
Proof.
  induction 1 as [|c s Hc F IH]; [cbn; lia|]. change (c :: s) with ([c] ++ s). rewrite dval_app.
  rewrite app_length. cbn [length]. unfold dval at 1 3; cbn [fold_left].
  replace (Z.of_nat (1 + length s)) with (Z.succ (Z.of_nat (length s))) by lia.
  rewrite Z.pow_succ_r by lia. unfold isd in Hc. nia.
Qed.
Lemma scan_ulong_run s r w ds : Forall isd s -> (1 <= length s <= w)%nat -> (w <= 18)%nat ->
  (length s = w \/ match r with c :: _ => is_digit c = false | [] => True end) ->
  sscanf (DUlong w :: ds) (s ++ r) = dval s :: sscanf ds r.
Proof.
  intros F Hl Hw Hr. cbn [sscanf]. rewrite scan_int_run by auto.
  pose proof (dval_bound s F). assert (10 ^ Z.of_nat (length s) <= 10 ^ 18) by (apply Z.pow_le_mono_r; lia).
  rewrite u64_id by lia. reflexivity.
Qed.
Lemma scan_skip c s r ds : is_alnum_lower c = false -> Forall isd s -> (1 <= length s)%nat ->
  sscanf (DSkip :: ds) (c :: s ++ r) = sscanf ds (s ++ r).
Proof.
  intros Hc F Hl. destruct s as [|x s]; [cbn in Hl; lia|]. inversion F; subst. cbn [sscanf app skip_class].
  rewrite Hc. rewrite isd_alnum by auto. reflexivity.
Qed.
Lemma scan_skip_end ds : sscanf (DSkip :: ds) [] = [].
Proof. reflexivity. Qed.

(* the C string of a buffer *)
Lemma cstr_run s r : Forall (fun c => c <> 0) s -> cstr (s ++ 0 :: r) = s.
Proof.
  induction 1 as [|c s Hc F IH]; [reflexivity|]. cbn [app cstr]. destruct (Z.eqb_spec c 0); [contradiction|]. rewrite IH. reflexivity.
Qed.

(* the delimiter loop, over the list it reads *)
Fixpoint loopl (s : list Z) (idx : nat) (dc yl : Z) : nat * Z :=
  match s with
  | [] => (idx, yl)
  | c :: s' =>
    let '(dc, yl) := if is_digit c then (dc, yl) else (dc + 1, if yl =? -1 then Z.of_nat idx else yl) in
    if (5 <? dc) && (c =? 46) then (idx, yl) else loopl s' (S idx) dc yl
  end.
Lemma scan_loop_list buf n idx dc yl : (idx + n <= length buf)%nat ->
  scan_loop true buf n idx dc yl = loopl (firstn n (skipn idx buf)) idx dc yl.
Proof.
  revert idx dc yl; induction n as [|n IH]; intros idx dc yl Hl; [reflexivity|].
  cbn [scan_loop]. unfold at0 at 1 2.
  assert (E : skipn idx buf = nth idx buf 0 :: skipn (S idx) buf).
  { clear - Hl. revert idx Hl. induction buf as [|b buf IH]; intros idx Hl; [cbn in Hl; lia|].
    destruct idx; [reflexivity|]. cbn [skipn nth]. apply IH. cbn in Hl; lia. }
  rewrite E. cbn [firstn loopl]. destruct (is_digit (nth idx buf 0)).
  - destruct ((5 <? dc) && (nth idx buf 0 =? 46)); [reflexivity|]. apply IH; lia.
  - destruct ((5 <? dc + 1) && (nth idx buf 0 =? 46)); [reflexivity|]. apply IH; lia.
Qed.
Lemma loopl_digits s r idx dc yl : Forall isd s -> loopl (s ++ r) idx dc yl = loopl r (idx + length s) dc yl.
Proof.
  intros F. revert idx; induction F as [|c s Hc F IH]; intros idx; [cbn; rewrite Nat.add_0_r; reflexivity|].
  cbn [app loopl length]. rewrite isd_digit by auto. rewrite (isd_neq c 46) by (auto; lia). rewrite andb_false_r.
  rewrite IH. f_equal. lia.
Qed.
Lemma loopl_delim c r idx dc : is_digit c = false -> (dc < 5 \/ c <> 46) ->
  forall yl, loopl (c :: r) idx dc yl = loopl r (S idx) (dc + 1) (if yl =? -1 then Z.of_nat idx else yl).
Proof.
  intros Hc Hd yl. cbn [loopl]. rewrite Hc.
  destruct (Z.ltb_spec 5 (dc + 1)); cbn [andb]; [|reflexivity]. destruct (Z.eqb_spec c 46); [|reflexivity]. lia.
Qed.

(* padding the fraction *)
Definition padc (c : Z) : Z := if is_digit c then c else 48.
Lemma pad_loop_app pre s r : (length pre + length s <= 26)%nat ->
  pad_loop (length s) (length pre) (pre ++ s ++ r) = pre ++ map padc s ++ r.
Proof.
  revert pre; induction s as [|c s IH]; intros pre Hl; [reflexivity|].
  cbn [length pad_loop] in *. destruct (Nat.ltb_spec (length pre) 26); [|lia].
  assert (A : at0 (pre ++ (c :: s) ++ r) (length pre) = c).
  { unfold at0. rewrite app_nth2, Nat.sub_diag by lia. reflexivity. }
  rewrite A.
  assert (E : (if is_digit c then pre ++ (c :: s) ++ r
               else firstn (length pre) (pre ++ (c :: s) ++ r) ++ 48 :: skipn (S (length pre)) (pre ++ (c :: s) ++ r))
              = (pre ++ [padc c]) ++ s ++ r).
  { unfold padc. destruct (is_digit c); rewrite <- app_assoc; [reflexivity|].
    rewrite firstn_app, Nat.sub_diag, firstn_all. cbn [firstn]. rewrite app_nil_r.
    rewrite skipn_app. rewrite skipn_all2 by lia. replace (S (length pre) - length pre)%nat with 1%nat by lia. reflexivity. }
  rewrite E. replace (S (length pre)) with (length (pre ++ [padc c])) by (rewrite app_length; cbn; lia).
  rewrite IH by (rewrite app_length; cbn; lia). rewrite <- app_assoc. reflexivity.
Qed.

Lemma fixed_split a b n : fixed (a + b) n = fixed a (n / 10 ^ Z.of_nat b) ++ fixed b n.
Proof.
  revert n; induction b as [|b IH]; intros n.
  - rewrite Nat.add_0_r. cbn [fixed]. rewrite app_nil_r. change (10 ^ Z.of_nat 0) with 1. rewrite Z.div_1_r. reflexivity.
  - rewrite Nat.add_succ_r. cbn [fixed]. rewrite IH, <- app_assoc. f_equal. f_equal.
    rewrite Z.div_div by (try lia; apply Z.pow_pos_nonneg; lia). rewrite Nat2Z.inj_succ, Z.pow_succ_r by lia. reflexivity.
Qed.

(* The fixed-width text of a date and of a time of day *)
Definition D10 (y m d : Z) (r : list Z) : list Z := fixed 4 y ++ 45 :: fixed 2 m ++ 45 :: fixed 2 d ++ r.
Definition T8 (h mi s : Z) (r : list Z) : list Z := fixed 2 h ++ 58 :: fixed 2 mi ++ 58 :: fixed 2 s ++ r.
Lemma D10_app y m d r t : D10 y m d r ++ t = D10 y m d (r ++ t).
Proof. unfold D10. repeat (rewrite <- app_assoc; cbn [app]). reflexivity. Qed.
Lemma T8_app h mi s r t : T8 h mi s r ++ t = T8 h mi s (r ++ t).
Proof. unfold T8. repeat (rewrite <- app_assoc; cbn [app]). reflexivity. Qed.
Lemma D10_len y m d r : length (D10 y m d r) = (10 + length r)%nat.
Proof. unfold D10. rewrite app_length. cbn [length]. rewrite app_length. cbn [length]. rewrite app_length, !fixed_length. lia. Qed.
Lemma T8_len h mi s r : length (T8 h mi s r) = (8 + length r)%nat.
Proof. unfold T8. rewrite app_length. cbn [length]. rewrite app_length. cbn [length]. rewrite app_length, !fixed_length. lia. Qed.
Lemma isd_nz s : Forall isd s -> Forall (fun c => c <> 0) s.
Proof. intros F. eapply Forall_impl; [|exact F]. unfold isd. intros; cbn in *; lia. Qed.
Lemma D10_nz y m d r : Forall (fun c => c <> 0) r -> Forall (fun c => c <> 0) (D10 y m d r).
Proof.
  intros H. unfold D10. repeat (first [apply Forall_app; split; [apply isd_nz, fixed_isd|]|constructor; [lia|]|exact H]).
Qed.
Lemma T8_nz h mi s r : Forall (fun c => c <> 0) r -> Forall (fun c => c <> 0) (T8 h mi s r).
Proof.
  intros H. unfold T8. repeat (first [apply Forall_app; split; [apply isd_nz, fixed_isd|]|constructor; [lia|]|exact H]).
Qed.
Lemma D10_loop y m d r : loopl (D10 y m d r) 0 0 (-1) = loopl r 10 2 4.
Proof.
  unfold D10. rewrite loopl_digits by apply fixed_isd. rewrite fixed_length.
  rewrite loopl_delim by (try reflexivity; lia). rewrite loopl_digits by apply fixed_isd. rewrite fixed_length.
  rewrite loopl_delim by (try reflexivity; lia). rewrite loopl_digits by apply fixed_isd. rewrite fixed_length. reflexivity.
Qed.
Lemma T8_loop h mi s r idx dc yl : dc <= 3 -> 0 <= yl -> loopl (T8 h mi s r) idx dc yl = loopl r (idx + 8) (dc + 2) yl.
Proof.
  intros Hd Hy. unfold T8. rewrite loopl_digits by apply fixed_isd. rewrite fixed_length.
  rewrite loopl_delim by (try reflexivity; lia). rewrite loopl_digits by apply fixed_isd. rewrite fixed_length.
  destruct (Z.eqb_spec yl (-1)); [lia|].
  rewrite loopl_delim by (try reflexivity; lia). rewrite loopl_digits by apply fixed_isd. rewrite fixed_length.
  destruct (Z.eqb_spec yl (-1)); [lia|]. f_equal; lia.
Qed.
Lemma D10_delim y m d r : negb (is_digit (at0 (D10 y m d r) 2) && is_digit (at0 (D10 y m d r) 4)) = true.
Proof.
  assert (E : at0 (D10 y m d r) 4 = 45).
  { unfold at0, D10. rewrite app_nth2 by (rewrite fixed_length; lia). rewrite fixed_length. reflexivity. }
  rewrite E. rewrite andb_false_r. reflexivity.
Qed.

Ltac small_dval := rewrite !fixed_dval; change (Z.of_nat 4) with 4; change (Z.of_nat 2) with 2; change (Z.of_nat 6) with 6.
Definition date_dirs (ds : list dir) : list dir := DUlong 4 :: DSkip :: DUlong 2 :: DSkip :: DUlong 2 :: ds.
Lemma scan_date y m d r ds : 0 <= y < 10000 -> 0 <= m < 100 -> 0 <= d < 100 ->
  sscanf (date_dirs ds) (D10 y m d r) = y :: m :: d :: sscanf ds r.
Proof.
  intros Hy Hm Hd. unfold date_dirs, D10.
  rewrite scan_ulong_run by (rewrite ?fixed_length; auto using fixed_isd; lia).
  rewrite scan_skip by (rewrite ?fixed_length; auto using fixed_isd).
  rewrite scan_ulong_run by (rewrite ?fixed_length; auto using fixed_isd; lia).
  rewrite scan_skip by (rewrite ?fixed_length; auto using fixed_isd).
  rewrite scan_ulong_run by (rewrite ?fixed_length; auto using fixed_isd; lia).
  small_dval. rewrite !Z.mod_small by lia. reflexivity.
Qed.
Definition tod_dirs (ds : list dir) : list dir := DSkip :: DUlong 2 :: DSkip :: DUlong 2 :: DSkip :: DUlong 2 :: ds.
Lemma scan_tod c h mi s r ds : is_alnum_lower c = false -> 0 <= h < 100 -> 0 <= mi < 100 -> 0 <= s < 100 ->
  sscanf (tod_dirs ds) (c :: T8 h mi s r) = h :: mi :: s :: sscanf ds r.
Proof.
  intros Hc Hh Hm Hs. unfold tod_dirs, T8.
  rewrite scan_skip by (rewrite ?fixed_length; auto using fixed_isd).
  rewrite scan_ulong_run by (rewrite ?fixed_length; auto using fixed_isd; lia).
  rewrite scan_skip by (rewrite ?fixed_length; auto using fixed_isd).
  rewrite scan_ulong_run by (rewrite ?fixed_length; auto using fixed_isd; lia).
  rewrite scan_skip by (rewrite ?fixed_length; auto using fixed_isd).
  rewrite scan_ulong_run by (rewrite ?fixed_length; auto using fixed_isd; lia).
  small_dval. rewrite !Z.mod_small by lia. reflexivity.
Qed.
Lemma scan_frac fr : Forall isd fr -> length fr = 6%nat -> sscanf [DLit 46; DUlong 6] (46 :: fr) = [dval fr].
Proof.
  intros F L. change (sscanf [DLit 46; DUlong 6] (46 :: fr)) with (sscanf [DUlong 6] fr).
  rewrite <- (app_nil_r fr) at 1. rewrite scan_ulong_run by (auto; lia). reflexivity.
Qed.

Lemma finish_ok y mo d h mi s us full : valid_fields y mo d h mi s us ->
  finish 4 full [y; mo; d; h; mi; s; us] = (pack (mk_dtf y mo d h mi s us), full).
Proof.
  intros (Hy & Hmo & Hd & (Hh & Hmi & Hs) & Hu). unfold finish, at0. cbn [nth]. change (4 =? 2) with false. cbn iota.
  destruct (Z.ltb_spec 12 mo); [lia|]. destruct (Z.ltb_spec 31 d); [lia|]. destruct (Z.ltb_spec 23 h); [lia|].
  destruct (Z.ltb_spec 59 mi); [lia|]. destruct (Z.ltb_spec 59 s); [lia|]. reflexivity.
Qed.
Lemma skip_blanks_D10 y m d r : skip_blanks (D10 y m d r) = Some (D10 y m d r).
Proof.
  pose proof (fixed_isd 4 y) as F. unfold D10. pose proof (fixed_length 4 y) as L.
  destruct (fixed 4 y) as [|c s]; [cbn in L; lia|]. inversion F; subst. cbn [app skip_blanks].
  rewrite (isd_neq c 32) by (auto; lia). reflexivity.
Qed.

Lemma firstn_exact n (s t : list Z) : length s = n -> firstn n (s ++ t) = s.
Proof. intros <-. rewrite firstn_app, Nat.sub_diag, firstn_all. cbn [firstn]. apply app_nil_r. Qed.

(* a date alone *)
Lemma parse_date y m d tail : 0 <= y <= 9999 -> 0 <= m <= 12 -> 0 <= d <= 31 ->
  str_to_datetime (D10 y m d [] ++ tail) 10 = Some (pack (mk_dtf y m d 0 0 0 0), true).
Proof.
  intros Hy Hm Hd. unfold str_to_datetime. rewrite D10_app, skip_blanks_D10. cbn [app].
  change (Nat.min 10 26) with 10%nat. rewrite D10_len.
  destruct (Nat.ltb_spec (10 + length tail) 10); [lia|]. f_equal.
  assert (E : firstn 10 (D10 y m d tail) = D10 y m d []).
  { change tail with ([] ++ tail). rewrite <- D10_app. apply firstn_exact. rewrite D10_len; reflexivity. }
  rewrite E. change (27 - 10)%nat with 17%nat. rewrite D10_app. cbn [app]. unfold parse_buf. rewrite D10_delim.
  destruct (at0 (D10 y m d (repeat 0 17)) 3 =? 45).
  all: rewrite scan_loop_list by (rewrite D10_len; cbn; lia); cbn [skipn].
  all: change (D10 y m d (repeat 0 17)) with (D10 y m d ([] ++ repeat 0 17)); rewrite <- D10_app.
  all: rewrite firstn_exact by (rewrite D10_len; reflexivity); rewrite D10_loop; cbn [loopl]; change (10 <? 10)%nat with false; cbn iota.
  all: change (repeat 0 17) with (0 :: repeat 0 16); rewrite cstr_run by (apply D10_nz; constructor).
  all: change DELIM_FORMAT with (date_dirs (tod_dirs [DLit 46; DUlong 6])); rewrite scan_date by lia.
  all: rewrite <- (finish_ok y m d 0 0 0 0) by (unfold valid_fields, valid_tod; lia); reflexivity.
Qed.
(* date and time without fraction *)
Lemma parse_dt19 y m d h mi s tail : valid_fields y m d h mi s 0 ->
  str_to_datetime (D10 y m d (32 :: T8 h mi s []) ++ tail) 19 = Some (pack (mk_dtf y m d h mi s 0), true).
Proof.
  intros (Hy & Hm & Hd & (Hh & Hmi & Hs) & _). unfold str_to_datetime.
  assert (L : length (D10 y m d (32 :: T8 h mi s [])) = 19%nat) by (rewrite D10_len; cbn [length]; rewrite T8_len; reflexivity).
  rewrite D10_app at 1. rewrite skip_blanks_D10. rewrite <- D10_app. change (Nat.min 19 26) with 19%nat. rewrite app_length, L.
  destruct (Nat.ltb_spec (19 + length tail) 19); [lia|]. f_equal.
  rewrite firstn_exact by exact L.
  change (27 - 19)%nat with 8%nat. unfold parse_buf.
  rewrite (D10_app y m d (32 :: T8 h mi s []) (repeat 0 8)), D10_delim, <- (D10_app y m d (32 :: T8 h mi s []) (repeat 0 8)).
  cbn iota.
  destruct (at0 (D10 y m d (32 :: T8 h mi s []) ++ repeat 0 8) 3 =? 45).
  all: rewrite scan_loop_list by (rewrite app_length, L; cbn; lia); cbn [skipn].
  all: rewrite firstn_exact by exact L; rewrite D10_loop.
  all: rewrite loopl_delim by (try reflexivity; lia); change (4 =? -1) with false; cbn iota;
       rewrite T8_loop by lia; cbn [loopl]; change (11 + 8 <? 19)%nat with false; cbn iota.
  all: change (repeat 0 8) with (0 :: repeat 0 7); rewrite cstr_run by (apply D10_nz; constructor; [lia|apply T8_nz; constructor]).
  all: change DELIM_FORMAT with (date_dirs (tod_dirs [DLit 46; DUlong 6])); rewrite scan_date by lia;
       rewrite scan_tod by (try reflexivity; lia).
  all: rewrite <- (finish_ok y m d h mi s 0) by (unfold valid_fields, valid_tod; lia); reflexivity.
Qed.
(* with a fraction of 1 to 6 digits *)
Lemma parse_dt_frac y m d h mi s fr tail : valid_fields y m d h mi s 0 -> Forall isd fr -> (1 <= length fr <= 6)%nat ->
  str_to_datetime (D10 y m d (32 :: T8 h mi s (46 :: fr)) ++ tail) (20 + length fr) =
  Some (pack (mk_dtf y m d h mi s (dval fr * 10 ^ Z.of_nat (6 - length fr))), true).
Proof.
  intros (Hy & Hm & Hd & (Hh & Hmi & Hs) & _) F Lf. unfold str_to_datetime.
  assert (L : length (D10 y m d (32 :: T8 h mi s (46 :: fr))) = (20 + length fr)%nat)
    by (rewrite D10_len; cbn [length]; rewrite T8_len; cbn [length]; lia).
  rewrite D10_app at 1. rewrite skip_blanks_D10. rewrite <- D10_app. rewrite Nat.min_l by lia. rewrite app_length, L.
  destruct (Nat.ltb_spec (20 + length fr + length tail) (20 + length fr)); [lia|]. f_equal.
  rewrite firstn_exact by exact L.
  set (zs := repeat 0 (27 - (20 + length fr))). unfold parse_buf.
  rewrite (D10_app y m d (32 :: T8 h mi s (46 :: fr)) zs), D10_delim, <- (D10_app y m d (32 :: T8 h mi s (46 :: fr)) zs).
  cbn iota.
  assert (Lz : length zs = (7 - length fr)%nat) by (subst zs; rewrite repeat_length; lia).
  set (fr6 := fr ++ repeat 48 (6 - length fr)).
  assert (F6 : Forall isd fr6).
  { apply Forall_app; split; [auto|]. apply Forall_forall. intros x Hx. apply repeat_spec in Hx. unfold isd; lia. }
  assert (L6 : length fr6 = 6%nat) by (subst fr6; rewrite app_length, repeat_length; lia).
  assert (V6 : dval fr6 = dval fr * 10 ^ Z.of_nat (6 - length fr)).
  { subst fr6. rewrite dval_app, repeat_length. assert (Z0 : forall k, dval (repeat 48 k) = 0).
    { induction k as [|k IH]; [reflexivity|]. cbn [repeat]. change (48 :: repeat 48 k) with ([48] ++ repeat 48 k). rewrite dval_app, IH. cbn. lia. }
    rewrite Z0. lia. }
  assert (P : pad_loop 6 20 (D10 y m d (32 :: T8 h mi s (46 :: fr)) ++ zs) = D10 y m d (32 :: T8 h mi s (46 :: fr6)) ++ [0]).
  { assert (Ez : zs = repeat 0 (6 - length fr) ++ [0]).
    { subst zs. replace (27 - (20 + length fr))%nat with (6 - length fr + 1)%nat by lia. rewrite repeat_app. reflexivity. }
    set (pre := D10 y m d (32 :: T8 h mi s [46])).
    assert (Lp : length pre = 20%nat) by (subst pre; rewrite D10_len; cbn [length]; rewrite T8_len; reflexivity).
    assert (E1 : D10 y m d (32 :: T8 h mi s (46 :: fr)) ++ zs = pre ++ (fr ++ repeat 0 (6 - length fr)) ++ [0]).
    { subst pre. rewrite !D10_app. f_equal. cbn [app]. f_equal. rewrite !T8_app. f_equal. cbn [app]. rewrite Ez, <- app_assoc. reflexivity. }
    rewrite E1. rewrite <- Lp at 1.
    assert (L6' : length (fr ++ repeat 0 (6 - length fr)) = 6%nat) by (rewrite app_length, repeat_length; lia).
    rewrite <- L6' at 1. rewrite pad_loop_app by lia.
    subst pre. rewrite !D10_app. f_equal. cbn [app]. f_equal. rewrite !T8_app. f_equal. cbn [app]. f_equal. f_equal.
    rewrite map_app. subst fr6. f_equal.
    - clear - F. induction F as [|c l Hc F IH]; [reflexivity|]. cbn [map]. unfold padc. rewrite isd_digit by auto. f_equal; auto.
    - generalize (6 - length fr)%nat. intros k. induction k as [|k IH]; [reflexivity|]. cbn [repeat map]. rewrite IH. reflexivity. }
  destruct (at0 (D10 y m d (32 :: T8 h mi s (46 :: fr)) ++ zs) 3 =? 45).
  all: rewrite scan_loop_list by (rewrite app_length, L, Lz; lia); cbn [skipn].
  all: rewrite firstn_exact by exact L; rewrite D10_loop.
  all: rewrite loopl_delim by (try reflexivity; lia); change (4 =? -1) with false; cbn iota; rewrite T8_loop by lia.
  all: change (loopl (46 :: fr) (11 + 8) (2 + 1 + 2) 4) with (19%nat, 4).
  all: cbv beta iota; rewrite P, (proj2 (Nat.ltb_lt 19 (20 + length fr)) ltac:(lia)); cbv beta iota.
  all: rewrite cstr_run by (apply D10_nz; constructor; [lia|apply T8_nz; constructor; [lia|apply isd_nz; auto]]).
  all: change DELIM_FORMAT with (date_dirs (tod_dirs [DLit 46; DUlong 6])); rewrite scan_date by lia;
       rewrite scan_tod by (try reflexivity; lia); rewrite scan_frac by auto.
  all: rewrite V6; assert (0 <= dval fr * 10 ^ Z.of_nat (6 - length fr) < 1000000)
      by (rewrite <- V6; pose proof (dval_bound fr6 F6) as B; rewrite L6 in B; change (10 ^ Z.of_nat 6) with 1000000 in B; lia).
  all: apply finish_ok; unfold valid_fields, valid_tod; lia.
Qed.

Lemma text_of f : fields_ok f ->
  fmt 4 (f_year f) ++ [45] ++ fmt 2 (f_month f) ++ [45] ++ fmt 2 (f_day f) ++ [32] ++
  fmt 2 (f_hour f) ++ [58] ++ fmt 2 (f_minute f) ++ [58] ++ fmt 2 (f_second f) ++ [46] ++ fmt 6 (f_micro f) =
  D10 (f_year f) (f_month f) (f_day f) (32 :: T8 (f_hour f) (f_minute f) (f_second f) (46 :: fixed 6 (f_micro f))).
Proof.
  intros (Hy & Hm & Hd & (Hh & Hmi & Hs) & Hu).
  assert (10 ^ Z.of_nat 4 = 10000 /\ 10 ^ Z.of_nat 2 = 100 /\ 10 ^ Z.of_nat 6 = 1000000) as (P4 & P2 & P6) by (repeat split).
  rewrite !fmt_fixed by lia. unfold D10, T8. cbn [app]. rewrite <- ?app_assoc. reflexivity.
Qed.
Theorem datetime_text f p : fields_ok f ->
  let text := datetime_to_str (pack f) p in
  forall tail, str_to_datetime (text ++ tail) (length text) =
  Some (pack (mk_dtf (f_year f) (f_month f) (f_day f) (f_hour f) (f_minute f) (f_second f)
                (cut (f_micro f) (digits_shown (f_micro f) p))), true).
Proof.
  intros F. cbv zeta. intros tail. unfold datetime_to_str. rewrite unpack_pack by (apply ok_fit; auto).
  rewrite text_of by auto. pose proof F as (Hy & Hm & Hd & T & Hu).
  set (us := f_micro f) in *.
  assert (V0 : valid_fields (f_year f) (f_month f) (f_day f) (f_hour f) (f_minute f) (f_second f) 0) by (unfold valid_fields; tauto || (repeat split; unfold valid_tod in *; lia)).
  assert (FR : forall k, 1 <= k <= 6 ->
     let text := firstn (Z.to_nat (20 + k)) (D10 (f_year f) (f_month f) (f_day f) (32 :: T8 (f_hour f) (f_minute f) (f_second f) (46 :: fixed 6 us))) in
     str_to_datetime (text ++ tail) (length text) = Some (pack (mk_dtf (f_year f) (f_month f) (f_day f) (f_hour f) (f_minute f) (f_second f) (cut us k)), true)).
  { intros k Hk. cbv zeta.
    set (a := Z.to_nat k). set (b := Z.to_nat (6 - k)).
    replace 6%nat with (a + b)%nat by lia. rewrite fixed_split.
    set (fr := fixed a (us / 10 ^ Z.of_nat b)).
    assert (Lf : length fr = a) by (subst fr; apply fixed_length).
    assert (E : firstn (Z.to_nat (20 + k)) (D10 (f_year f) (f_month f) (f_day f) (32 :: T8 (f_hour f) (f_minute f) (f_second f) (46 :: fr ++ fixed b us)))
       = D10 (f_year f) (f_month f) (f_day f) (32 :: T8 (f_hour f) (f_minute f) (f_second f) (46 :: fr))).
    { change (32 :: T8 (f_hour f) (f_minute f) (f_second f) (46 :: fr ++ fixed b us)) with ([32] ++ T8 (f_hour f) (f_minute f) (f_second f) ((46 :: fr) ++ fixed b us)).
      rewrite <- T8_app, app_assoc, <- D10_app.
      assert (L : length (D10 (f_year f) (f_month f) (f_day f) ([32] ++ T8 (f_hour f) (f_minute f) (f_second f) (46 :: fr))) = Z.to_nat (20 + k)).
      { rewrite D10_len. cbn [app length]. rewrite T8_len. cbn [length]. lia. }
      apply firstn_exact. exact L. }
    rewrite E.
    replace (length (D10 (f_year f) (f_month f) (f_day f) (32 :: T8 (f_hour f) (f_minute f) (f_second f) (46 :: fr)))) with (20 + length fr)%nat
      by (rewrite D10_len; cbn [length]; rewrite T8_len; cbn [length]; lia).
    rewrite parse_dt_frac by (auto; try apply fixed_isd; lia). do 4 f_equal.
    rewrite Lf. subst fr. rewrite fixed_dval. replace (6 - a)%nat with b by lia. unfold cut.
    replace (6 - k) with (Z.of_nat b) by lia. f_equal. apply Z.mod_small.
    assert (0 < 10 ^ Z.of_nat b) by (apply Z.pow_pos_nonneg; lia).
    split; [apply Z.div_pos; lia|]. apply Z.div_lt_upper_bound; [lia|].
    rewrite <- Z.pow_add_r by lia. replace (Z.of_nat b + Z.of_nat a) with 6 by lia. lia. }
  assert (N19 : let text := firstn 19 (D10 (f_year f) (f_month f) (f_day f) (32 :: T8 (f_hour f) (f_minute f) (f_second f) (46 :: fixed 6 us))) in
     str_to_datetime (text ++ tail) (length text) = Some (pack (mk_dtf (f_year f) (f_month f) (f_day f) (f_hour f) (f_minute f) (f_second f) (cut us 0)), true)).
  { cbv zeta.
    assert (E : firstn 19 (D10 (f_year f) (f_month f) (f_day f) (32 :: T8 (f_hour f) (f_minute f) (f_second f) (46 :: fixed 6 us)))
       = D10 (f_year f) (f_month f) (f_day f) (32 :: T8 (f_hour f) (f_minute f) (f_second f) [])).
    { change (32 :: T8 (f_hour f) (f_minute f) (f_second f) (46 :: fixed 6 us)) with ([32] ++ T8 (f_hour f) (f_minute f) (f_second f) ([] ++ (46 :: fixed 6 us))).
      rewrite <- T8_app, app_assoc, <- D10_app.
      assert (L : length (D10 (f_year f) (f_month f) (f_day f) ([32] ++ T8 (f_hour f) (f_minute f) (f_second f) [])) = 19%nat).
      { rewrite D10_len. cbn [app length]. rewrite T8_len. reflexivity. }
      apply firstn_exact. exact L. }
    rewrite E.
    replace (length (D10 (f_year f) (f_month f) (f_day f) (32 :: T8 (f_hour f) (f_minute f) (f_second f) []))) with 19%nat
      by (rewrite D10_len; cbn [length]; rewrite T8_len; cbn [length]; lia).
    rewrite parse_dt19 by auto. do 4 f_equal. unfold cut. change (10 ^ (6 - 0)) with 1000000. rewrite Z.div_small by lia. reflexivity. }
  unfold digits_shown. destruct ((0 <? p) && (p <=? 6)) eqn:Ep.
  - apply andb_true_iff in Ep as [E1 E2]. apply Z.ltb_lt in E1. apply Z.leb_le in E2. apply FR. lia.
  - destruct ((p =? 0) || (us =? 0)); [apply N19|]. apply (FR 6). lia.
Qed.

Theorem date_text y m d tail : 0 <= y <= 9999 -> 0 <= m <= 12 -> 0 <= d <= 31 ->
  let date := datetime_to_date (pack (mk_dtf y m d 0 0 0 0)) in
  let text := date_to_str date in
  exists full, str_to_datetime (text ++ tail) (length text) = Some (date_to_datetime date, full).
Proof.
  intros Hy Hm Hd. cbv zeta.
  assert (F : fields_fit (mk_dtf y m d 0 0 0 0)) by (unfold fields_fit; cbn [f_year f_month f_day f_hour f_minute f_second f_micro]; lia).
  pose proof (date_fields _ F) as (_ & _ & _ & E). cbn [f_year f_month f_day] in E. rewrite E.
  assert (N : datetime_to_date (pack (mk_dtf y m d 0 0 0 0)) = (y * 13 + m) * 32 + d).
  { rewrite pack_num by auto. pose proof (num_fields _ F) as (_ & E41 & _). cbn [f_year f_month f_day] in E41.
    unfold datetime_to_date. change 0x3FFFFF with (2 ^ 22 - 1). rewrite field by lia. rewrite E41. apply Z.mod_small. lia. }
  assert (TX : date_to_str (datetime_to_date (pack (mk_dtf y m d 0 0 0 0))) = D10 y m d []).
  { rewrite N. unfold date_to_str. change 0x1FFFF with (2 ^ 17 - 1). change 0x1F with (2 ^ 5 - 1). rewrite field, land_ones' by lia.
    replace (((y * 13 + m) * 32 + d) / 2 ^ 5) with (y * 13 + m) by (change (2 ^ 5) with 32; apply Z.div_unique with d; lia).
    replace (((y * 13 + m) * 32 + d) mod 2 ^ 5) with d by (change (2 ^ 5) with 32; apply Z.mod_unique with (y * 13 + m); lia).
    rewrite (Z.mod_small (y * 13 + m)) by lia. rewrite Z.quot_div_nonneg, Z.rem_mod_nonneg by lia.
    replace ((y * 13 + m) / 13) with y by (apply Z.div_unique with m; lia).
    replace ((y * 13 + m) mod 13) with m by (apply Z.mod_unique with y; lia).
    assert (10 ^ Z.of_nat 4 = 10000 /\ 10 ^ Z.of_nat 2 = 100) as (P4 & P2) by (split; reflexivity).
    rewrite !fmt_fixed by lia. unfold D10. cbn [app]. rewrite <- ?app_assoc. cbn [app]. rewrite app_nil_r. reflexivity. }
  rewrite TX. rewrite D10_len. cbn [length]. exists true. rewrite Nat.add_0_r. apply parse_date; auto.
Qed.
