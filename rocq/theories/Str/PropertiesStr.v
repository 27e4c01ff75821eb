(** C89: a string function returns the bytes the SQL manual describes.
    C90: it returns the same when a whole column is computed at once. *)
From Coq Require Import Bool ZArith NArith List Lia.
From Verif Require Import Str.Spec Str.Model Str.Proofs Str.Top.
Import ListNotations.
Open Scope Z_scope.

(** * C89 *)

Theorem C89_substring_partial : forall s p n,
  len s < 2^31 -> - 2^31 <= p < 2^31 ->
  match n with None => True | Some n => - 2^31 <= n < 2^31 end ->
  exists r, substr (VStr s) (Some p) (option_map Some n) = RStr r /\ is_substring s p n r.
Proof. exact substr_ok. Qed.
Print Assumptions C89_substring_partial.

Example C89_substring_ex :
  substr (VStr [97; 98; 99; 100]%N) (Some (-3)) (Some (Some 2)) = RStr [98; 99]%N.
Proof. reflexivity. Qed.

Theorem C89_left_right_partial : forall s n, - 2^31 <= n < 2^31 ->
  (exists r, left_ (VStr s) (Some n) = RStr r /\ is_left s n r) /\
  (exists r, right_ (VStr s) (Some n) = RStr r /\ is_right s n r).
Proof. intros s n R. exact (conj (left_ok s n R) (right_ok s n R)). Qed.
Print Assumptions C89_left_right_partial.

Example C89_left_right_ex :
  left_ (VStr [97; 98; 99]%N) (Some 2) = RStr [97; 98]%N /\
  right_ (VStr [97; 98; 99]%N) (Some 2) = RStr [98; 99]%N.
Proof. split; reflexivity. Qed.

Theorem C89_trim_partial : forall s,
  (exists a r, ltrim (VStr s) = RStr r /\ s = a ++ r /\ blanks a /\ no_lead r) /\
  (exists r b, rtrim (VStr s) = RStr r /\ s = r ++ b /\ blanks b /\ no_trail r) /\
  (exists a r b, trim (VStr s) = RStr r /\ s = a ++ r ++ b /\ blanks a /\ blanks b /\
                 no_lead r /\ no_trail r).
Proof.
  intros s. destruct (drop_lead_ok s) as (a & E & B & N). split; [|split].
  - exists a, (drop_lead s). exact (conj eq_refl (conj E (conj B N))).
  - destruct (drop_trail_ok s) as (b & F & C & M).
    exists (drop_trail s), b. exact (conj eq_refl (conj F (conj C M))).
  - destruct (drop_trail_ok (drop_lead s)) as (b & F & C & M).
    exists a, (drop_trail (drop_lead s)), b.
    refine (conj eq_refl (conj _ (conj B (conj C (conj (drop_trail_lead _ N) M))))).
    rewrite <- F. exact E.
Qed.
Print Assumptions C89_trim_partial.

Example C89_trim_ex : trim (VStr [32; 97; 32; 98; 32; 32]%N) = RStr [97; 32; 98]%N.
Proof. reflexivity. Qed.

Theorem C89_pad_partial : forall s n pad, 1 <= n <= 65535 -> pad <> [] ->
  (exists r, lpad (VStr s) (Some n) (VStr pad) = RStr r /\ is_lpad s n pad r) /\
  (exists r, rpad (VStr s) (Some n) (VStr pad) = RStr r /\ is_rpad s n pad r).
Proof. intros s n pad R N. exact (conj (lpad_ok s n pad R N) (rpad_ok s n pad R N)). Qed.
Print Assumptions C89_pad_partial.

Example C89_pad_ex :
  lpad (VStr [55]%N) (Some 6) (VStr [97; 98]%N) = RStr [97; 98; 97; 98; 97; 55]%N /\
  rpad (VStr [55; 56]%N) (Some 1) (VStr [97; 98]%N) = RStr [55]%N.
Proof. split; reflexivity. Qed.

Theorem C89_insert_partial : forall s p n new,
  len s < 2^31 -> - 2^31 <= p < 2^31 -> 1 <= n < 2^31 ->
  exists r, insert (VStr s) (Some p) (Some n) (VStr new) = RStr r /\ is_insert s p n new r.
Proof. exact insert_ok. Qed.
Print Assumptions C89_insert_partial.

Example C89_insert_ex :
  insert (VStr [1; 2; 3; 4]%N) (Some 2) (Some 2) (VStr [9; 9; 9]%N) = RStr [1; 9; 9; 9; 4]%N.
Proof. reflexivity. Qed.

Theorem C89_replace_partial : forall s from to, from <> [] ->
  exists r, replace (VStr s) (VStr from) (VStr to) = RStr r /\ is_replace s from to r.
Proof. exact replace_ok. Qed.
Print Assumptions C89_replace_partial.

Example C89_replace_ex :
  replace (VStr [1; 1; 1; 2]%N) (VStr [1; 1]%N) (VStr [1; 1; 1]%N) = RStr [1; 1; 1; 1; 2]%N.
Proof. reflexivity. Qed.

Theorem C89_locate_partial : forall sub s p, - 2^31 < p < 2^31 ->
  (exists r, locate (VStr sub) (VStr s) (Some (Some p)) = RInt r /\ is_locate sub s p r) /\
  (exists r, locate (VStr sub) (VStr s) None = RInt r /\ is_locate sub s 1 r) /\
  (exists r, instr (VStr s) (VStr sub) = RInt r /\ is_locate sub s 1 r).
Proof.
  intros sub s p R. pose proof (locate_ok sub s 1 ltac:(lia)) as K.
  exact (conj (locate_ok sub s p R) (conj K K)).
Qed.
Print Assumptions C89_locate_partial.

Example C89_locate_ex :
  locate (VStr [7]%N) (VStr [7; 8; 7]%N) (Some (Some 2)) = RInt 3.
Proof. reflexivity. Qed.

Theorem C89_substring_index_partial : forall s sep n,
  sep <> [] -> - 2^31 < n < 2^31 -> n <> 0 ->
  exists r, substring_index (VStr s) (VStr sep) (Some n) = RStr r /\
            is_substring_index s sep n r.
Proof. exact substring_index_ok. Qed.
Print Assumptions C89_substring_index_partial.

Example C89_substring_index_ex :
  substring_index (VStr [1; 0; 2; 0; 3]%N) (VStr [0]%N) (Some (-2)) = RStr [2; 0; 3]%N.
Proof. reflexivity. Qed.

Theorem C89_split_part_partial : forall s sep n, sep <> [] -> 1 <= n < 2^31 ->
  exists r, split_part (VStr s) (VStr sep) (Some n) = RStr r /\ is_split_part s sep n r.
Proof. exact split_part_ok. Qed.
Print Assumptions C89_split_part_partial.

Example C89_split_part_ex :
  split_part (VStr [1; 0; 2; 0; 3]%N) (VStr [0]%N) (Some 2) = RStr [2]%N.
Proof. reflexivity. Qed.

Theorem C89_concat_partial : forall l sep,
  concat_ (map VStr l) [] = RStr (List.concat l) /\
  (l <> [] -> concat_ws (VStr sep) (map VStr l) = RStr (join sep l)).
Proof.
  intros l sep. split.
  - rewrite concat_loop_ok.
    assert (E : existsb is_null (map VStr l) = false) by (induction l; [reflexivity|assumption]).
    rewrite E, map_map. cbn [get_string]. rewrite map_id. reflexivity.
  - intros NE. unfold concat_ws. rewrite concat_ws_loop_ok.
    assert (F : map get_string (filter (fun v => negb (is_null v)) (map VStr l)) = l).
    { clear NE. induction l as [|s l IH]; [reflexivity|]. cbn. rewrite IH. reflexivity. }
    rewrite F. destruct l; [congruence|reflexivity].
Qed.
Print Assumptions C89_concat_partial.

Theorem C89_repeat_reverse_partial : forall s n, 1 <= n < 2^31 ->
  (exists r, repeat_ (VStr s) (Some n) = RStr r /\ r = List.concat (List.repeat s (Z.to_nat n))) /\
  (exists r, reverse_ (VStr s) = RStr r /\ length r = length s /\
     forall i, (i < length s)%nat -> nth_error r i = nth_error s (length s - 1 - i)).
Proof.
  intros s n R. split.
  - unfold repeat_, num32. cbn [is_null get_string]. rewrite to_i32_id by lia.
    replace (n <=? 0) with false by lia. eexists; split; reflexivity.
  - exists (rev s). split; [reflexivity|]. split; [apply rev_length|].
    intros i L. rewrite (nth_error_nth' (rev s) 0%N) by (rewrite rev_length; exact L).
    rewrite rev_nth by exact L. rewrite (nth_error_nth' s 0%N) by lia. f_equal. f_equal. lia.
Qed.
Print Assumptions C89_repeat_reverse_partial.

(** One NULL argument makes these functions NULL. *)
Theorem C89_null_partial :
  (forall s t n, s = VNull \/ t = VNull \/ n = None ->
     substring_index s t n = RNull /\ split_part s t n = RNull /\ locate s t (Some n) = RNull) /\
  (forall s t n m, s = VNull \/ t = VNull \/ n = None \/ m = None -> insert s n m t = RNull) /\
  (forall s t, s = VNull \/ t = VNull -> instr s t = RNull) /\
  (forall l, In VNull l -> concat_ l [] = RNull) /\
  (forall s n, s = VNull \/ n = None ->
     substr s n None = RNull /\ left_ s n = RNull /\ right_ s n = RNull) /\
  (forall s p n, s = VNull \/ p = None \/ n = None -> substr s p (Some n) = RNull) /\
  reverse_ VNull = RNull /\ (forall n, repeat_ VNull n = RNull).
Proof.
  split; [|split; [|split; [|split; [|split; [|split; [|split]]]]]].
  - intros s t n [->|[->| ->]]; [|destruct s|destruct s, t]; (split; [|split]); reflexivity.
  - intros s t n m [->|[->|[->| ->]]]; [|destruct s, n, m|destruct s, t|destruct s, t, n]; reflexivity.
  - intros s t [->| ->]; [destruct t|destruct s]; reflexivity.
  - intros l I. rewrite concat_loop_ok. replace (existsb is_null l) with true; [reflexivity|].
    symmetry. apply existsb_exists. exists VNull. split; [exact I|reflexivity].
  - intros s n [->| ->]; [|destruct s]; (split; [|split]); reflexivity.
  - intros s p n [->|[->| ->]]; [|destruct s|destruct s, p]; reflexivity.
  - reflexivity.
  - reflexivity.
Qed.
Print Assumptions C89_null_partial.

(** TRIM(NULL) is the empty string; LPAD(NULL, ...) pads as if NULL were empty;
    REPLACE with a NULL pattern returns its argument. *)
Theorem C89_null_refuted :
  trim VNull = RStr [] /\ ltrim VNull = RStr [] /\ rtrim VNull = RStr [] /\
  (forall n c, 1 <= n <= 65535 -> exists r, lpad VNull (Some n) (VStr [c]) = RStr r /\ r <> []) /\
  (forall s t, replace (VStr s) VNull t = RStr s) /\
  (forall s from, from <> [] -> replace (VStr s) (VStr from) VNull
                                = replace (VStr s) (VStr from) (VStr [])).
Proof.
  repeat (split; [reflexivity|]). split; [|split].
  - intros n c R. destruct (lpad_ok [] n [c] R ltac:(discriminate)) as (r & E & Q).
    exists r. split; [exact E|]. unfold is_lpad in Q.
    change (len []) with 0 in Q. destruct (n <=? 0) eqn:L; [lia|].
    destruct Q as (q & -> & _ & LL). intros F. rewrite F in LL. change (len []) with 0 in LL. lia.
  - intros s t. reflexivity.
  - intros s from N. reflexivity.
Qed.
Print Assumptions C89_null_refuted.

(** An integer argument is read as the empty string: LEFT(123, 2) is ''. *)
Theorem C89_integer_refuted : forall z n t,
  - 2^31 <= n < 2^31 ->
  left_ (VInt z) (Some n) = RStr [] /\ right_ (VInt z) (Some n) = RStr [] /\
  trim (VInt z) = RStr [] /\
  (t <> [] -> forall u, replace (VInt z) (VStr t) u = RStr []).
Proof.
  intros z n t R. unfold left_, right_, num32. cbn [is_null nnull orb str_val].
  rewrite to_i32_id by lia. cbv zeta.
  split; [destruct (n <=? 0); [reflexivity|]; now rewrite firstn_nil|].
  split; [destruct (n <=? 0); [reflexivity|]; now rewrite skipn_nil|].
  split; [reflexivity|]. intros NE u. unfold replace. cbn [is_null str_val].
  destruct t; [congruence|]. reflexivity.
Qed.
Print Assumptions C89_integer_refuted.

(** INSERT(s, p, 0, new) inserts nothing, REPEAT(s, 0) is NULL, and
    CONCAT_WS of NULLs only is NULL. *)
Theorem C89_zero_refuted : forall s p new sep, 1 <= p <= len s -> p < 2^31 -> new <> [] ->
  (exists r, insert (VStr s) (Some p) (Some 0) (VStr new) = RStr r /\ ~ is_insert s p 0 new r) /\
  repeat_ (VStr s) (Some 0) = RNull /\
  concat_ws (VStr sep) [VNull; VNull] = RNull.
Proof.
  intros s p new sep R P NE. split; [|split; reflexivity].
  exists s. split.
  - unfold insert, num32. cbn [is_null nnull orb get_string].
    rewrite to_i32_id by lia. replace (p <? 1) with false by lia. reflexivity.
  - unfold is_insert. replace ((1 <=? p) && (p <=? len s)) with true by lia.
    intros (a & m & b & -> & E & _ & L).
    rewrite !len_app in R, L. pose proof (len_nonneg a). pose proof (len_nonneg m).
    pose proof (len_nonneg b). destruct ((0 <=? 0) && _) eqn:Q.
    + destruct m; [|unfold len in L; cbn in L; lia].
      apply app_inv_head in E. apply (f_equal (@length N)) in E.
      rewrite !app_length in E. destruct new; [congruence|cbn [length] in E; lia].
    + apply andb_false_iff in Q. destruct Q as [Q|Q]; [discriminate|]. apply Z.leb_gt in Q. lia.
Qed.
Print Assumptions C89_zero_refuted.

(** Numbers are cut to 32 bits: SUBSTRING(s, 2^32 + p) is SUBSTRING(s, p); two
    numbers overflow. *)
Theorem C89_wide_number_refuted :
  (forall s p, - 2^31 <= p < 2^31 -> substr (VStr s) (Some (2^32 + p)) None
                                     = substr (VStr s) (Some p) None) /\
  (forall s t, locate (VStr s) (VStr t) (Some (Some (- 2^31))) = RBad) /\
  (forall s c t, substring_index (VStr s) (VStr (c :: t)) (Some (- 2^31)) = RBad).
Proof.
  split; [|split; reflexivity]. intros s p R. unfold substr, num32.
  replace (to_i32 (2^32 + p)) with (to_i32 p); [reflexivity|].
  unfold to_i32. replace (2^32 + p + 2^31) with (p + 2^31 + 1 * 2^32) by lia.
  rewrite Z.mod_add by lia. reflexivity.
Qed.
Print Assumptions C89_wide_number_refuted.

(** * C90 *)

Theorem C90_reverse_repeat_concat : forall rows n l,
  v_reverse rows = map reverse_ rows /\
  v_repeat rows n = map (fun v => repeat_ v n) rows /\
  v_concat l = concat_ l [].
Proof.
  intros. exact (conj (reverse_same rows) (conj (repeat_same rows n) (concat_same l))).
Qed.
Print Assumptions C90_reverse_repeat_concat.

Theorem C90_substring_partial : forall rows p n,
  1 <= p < 2^31 -> match n with None => True | Some n => - 2^31 <= n < 2^31 end ->
  Forall (fun v => len (get_string v) < 2^31) rows ->
  v_substr rows (Some p) (option_map Some n)
  = map (fun v => substr v (Some p) (option_map Some n)) rows.
Proof. exact substr_same. Qed.
Print Assumptions C90_substring_partial.

Theorem C90_replace_partial : forall (rows : list (option bytes)) from to,
  let column := map (fun o => match o with Some s => VStr s | None => VNull end) rows in
  v_replace column (VStr from) (VStr to) = map (fun v => replace v (VStr from) (VStr to)) column.
Proof. exact replace_same. Qed.
Print Assumptions C90_replace_partial.

Theorem C90_substring_index_partial : forall rows sep n, sep <> [] ->
  (0 < n < 2^31 ->
   v_substring_index rows (VStr sep) (Some n)
   = Some (map (fun v => substring_index v (VStr sep) (Some n)) rows)) /\
  (- 2^31 < n < 0 -> forall s,
   v_substring_index [VStr s] (VStr sep) (Some n)
   = Some [substring_index (VStr s) (VStr sep) (Some n)]).
Proof.
  intros rows sep n NE. split; [apply substring_index_same; exact NE|].
  intros R s. apply substring_index_one; assumption.
Qed.
Print Assumptions C90_substring_index_partial.

Theorem C90_concat_ws_partial : forall sep l,
  sep = VNull \/ l = [] \/ existsb (fun v => negb (is_null v)) l = true ->
  v_concat_ws sep l = concat_ws sep l.
Proof. exact concat_ws_same. Qed.
Print Assumptions C90_concat_ws_partial.

Example C90_ex :
  v_substr [VStr [1; 2; 3]%N; VNull; VInt 42] (Some 2) (Some (Some 1))
    = [RStr [2]%N; RNull; RStr [50]%N] /\
  v_substring_index [VStr [1; 0; 2]%N; VNull; VStr [3]%N] (VStr [0]%N) (Some 1)
    = Some [RStr [1]%N; RNull; RStr [3]%N].
Proof. split; reflexivity. Qed.

(** SUBSTRING_INDEX with a negative count: the second row of a column is
    computed with another count, and "a.b" twice even reads before the array. *)
Theorem C90_substring_index_refuted :
  (exists s, substring_index (VStr s) (VStr [0]%N) (Some (-1)) = RStr [3]%N /\
     v_substring_index [VStr s; VStr s] (VStr [0]%N) (Some (-1))
       = Some [RStr [3]%N; RStr [1]%N]) /\
  (exists s, substring_index (VStr s) (VStr [0]%N) (Some (-1)) = RStr [2]%N /\
     v_substring_index [VStr s; VStr s] (VStr [0]%N) (Some (-1)) = None).
Proof.
  split; [exists [1; 0; 2; 0; 3]%N|exists [1; 0; 2]%N]; split; reflexivity.
Qed.
Print Assumptions C90_substring_index_refuted.

(** SUBSTRING from place 0, from a NULL place, before the start, and from the
    end with a length reaching the end. *)
Theorem C90_substring_refuted : forall s, len s < 2^31 -> s <> [] ->
  v_substr [VStr s] (Some 0) None = [RStr s] /\ substr (VStr s) (Some 0) None = RStr [] /\
  v_substr [VStr s] None None = [RStr s] /\ substr (VStr s) None None = RNull /\
  v_substr [VStr s] (Some (- len s - 1)) None = [RStr s] /\
  substr (VStr s) (Some (- len s - 1)) None = RStr [] /\
  v_substr [VStr s] (Some (-1)) (Some (Some 1)) = [RStr []] /\
  (exists b, substr (VStr s) (Some (-1)) (Some (Some 1)) = RStr [b]).
Proof.
  intros s L NE.
  assert (P : 0 < len s) by (destruct s; [congruence|unfold len; cbn; lia]).
  assert (ALL : forall k, k <= 0 -> k = 0 \/ k = - len s - 1 -> slice s k (2^63 - 1) = s).
  { intros k K D. unfold slice. change (2^63 - 1 <? 0) with false. cbv iota.
    replace (Z.max 0 (Z.min (len s) (if k <? 0 then len s + k else k))) with 0
      by (destruct D as [->| ->]; [cbn; lia|]; destruct (_ <? 0); lia).
    cbn [Z.to_nat skipn]. apply firstn_all2. unfold len in *. lia. }
  unfold v_substr, substr, num32. cbn [num64 map on_row get_string is_null nnull orb].
  change (0 <? 0) with false. cbv iota zeta.
  change (2^63 - 1 <? 2^63 - 1) with false. cbv iota.
  rewrite (ALL 0) by lia.
  split; [reflexivity|]. split; [reflexivity|]. split; [reflexivity|]. split; [reflexivity|].
  replace (0 <? - len s - 1) with false by lia. cbv iota. rewrite ALL by lia.
  split; [reflexivity|]. rewrite to_i32_id by lia.
  replace (- len s - 1 <? 0) with true by lia. cbv iota.
  replace (len s + (- len s - 1)) with (-1) by lia. split; [reflexivity|].
  change (to_i32 (-1)) with (-1). change (to_i32 1) with 1. change (-1 <? 0) with true.
  change (0 <? -1) with false. change (1 <? 0) with false. change (1 <=? 0) with false.
  change (-1 + 1) with 0. change (2^63 - 1 <? 0) with false. cbv iota. split.
  - unfold slice. change (2^63 - 1 <? -1 + 1) with false. change (-1 + 1 <? 0) with false.
    change (-1 <? 0) with true. change (-1 + 1) with 0. cbv iota.
    replace (Z.max 0 (Z.min (len s) 0) - Z.max 0 (Z.min (len s) (len s + -1))) with (1 - len s) by lia.
    replace (Z.to_nat (1 - len s)) with 0%nat by lia. reflexivity.
  - replace ((len s + -1 <? 0) || (len s <=? len s + -1)) with false by lia.
    destruct (skipn (Z.to_nat (len s + -1)) s) as [|b r] eqn:E.
    + apply (f_equal (@length N)) in E. rewrite skipn_length in E. cbn in E. unfold len in *. lia.
    + exists b. reflexivity.
Qed.
Print Assumptions C90_substring_refuted.

(** CONCAT_WS of NULLs only, and REPLACE in a column of integers. *)
Theorem C90_others_refuted :
  (forall sep, concat_ws (VStr sep) [VNull] = RNull /\ v_concat_ws (VStr sep) [VNull] = RStr []) /\
  replace (VInt 7) (VStr [1]%N) (VStr []) = RStr [] /\
  v_replace [VInt 7] (VStr [1]%N) (VStr []) = [RStr [55]%N].
Proof. split; [split; reflexivity|split; reflexivity]. Qed.
Print Assumptions C90_others_refuted.
