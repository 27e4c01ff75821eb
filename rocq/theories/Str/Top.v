(* The two evaluators compared. *)
From Coq Require Import Bool ZArith NArith List Lia.
From Verif Require Import Str.Spec Str.Model Str.Proofs.
Import ListNotations.
Open Scope Z_scope.

Lemma reverse_same rows : v_reverse rows = map reverse_ rows.
Proof. apply map_ext. intros [| |]; reflexivity. Qed.

Lemma repeat_same rows n : v_repeat rows n = map (fun v => repeat_ v n) rows.
Proof.
  apply map_ext. intros v. unfold repeat_.
  replace (to_i32 (num64 n)) with (num32 n) by (destruct n; reflexivity).
  destruct v; cbn [is_null on_row]; destruct (num32 n <=? 0); reflexivity.
Qed.

Lemma concat_same l : v_concat l = concat_ l [].
Proof. rewrite concat_loop_ok. reflexivity. Qed.

Lemma concat_ws_same sep l : sep = VNull \/ l = [] \/ existsb (fun v => negb (is_null v)) l = true ->
  v_concat_ws sep l = concat_ws sep l.
Proof.
  intros D. unfold v_concat_ws, concat_ws. destruct l as [|v0 l0]; [reflexivity|].
  remember (v0 :: l0) as l eqn:El. destruct (is_null sep) eqn:E; [reflexivity|].
  rewrite concat_ws_loop_ok.
  destruct D as [->|[D|D]]; [discriminate|congruence|].
  destruct (filter (fun v => negb (is_null v)) l) as [|x r] eqn:F; [|reflexivity].
  exfalso. clear El. revert F D. induction l as [|v l IH]; cbn; [discriminate|].
  destruct (negb (is_null v)); [discriminate|]. exact IH.
Qed.

Definition row_of (o : option bytes) : val := match o with Some s => VStr s | None => VNull end.

Lemma replace_same rows from to :
  v_replace (map row_of rows) (VStr from) (VStr to)
  = map (fun v => replace v (VStr from) (VStr to)) (map row_of rows).
Proof.
  apply map_ext_in. intros v I. apply in_map_iff in I. destruct I as ([s|] & <- & _); [|reflexivity].
  cbn [row_of on_row get_string]. unfold replace. cbn [is_null str_val get_string].
  destruct from as [|c f]; [reflexivity|]. set (from := c :: f).
  assert (NE : from <> []) by discriminate.
  destruct (pieces_exist from NE s) as (l & P).
  rewrite (replace_loop_ok from to s l NE P []) by lia.
  change (length from =? 0)%nat with false. cbv iota.
  rewrite (replace_kernel_ok from to s l NE P) by lia. reflexivity.
Qed.

Lemma index_rows_same rows sep n : sep <> [] -> 0 < n < 2^31 ->
  index_rows sep n rows = Some (map (fun v => substring_index v (VStr sep) (Some n)) rows).
Proof.
  intros NE R. induction rows as [|v rows IH]; [reflexivity|].
  assert (ROW : is_null v = false ->
    exists o, index_row sep n (get_string v) = Some (n, o) /\
              substring_index v (VStr sep) (Some n) = RStr o).
  { intros NN. unfold index_row, substring_index, num32. rewrite NN. cbn [is_null nnull orb].
    rewrite to_i32_id by lia. cbn [get_string].
    replace (0 <? n) with true by lia. replace (n =? 0) with false by lia.
    destruct sep as [|c f]; [congruence|]. cbv zeta.
    destruct (n <=? _) eqn:E; [|eexists; split; reflexivity].
    destruct (nth_error _ _) eqn:K; [eexists; split; reflexivity|].
    apply nth_error_None in K. lia. }
  destruct v; cbn [index_rows map].
  - rewrite IH. reflexivity.
  - destruct (ROW eq_refl) as (o & -> & ->). rewrite IH. reflexivity.
  - destruct (ROW eq_refl) as (o & -> & ->). rewrite IH. reflexivity.
Qed.

Lemma substring_index_same rows sep n : sep <> [] -> 0 < n < 2^31 ->
  v_substring_index rows (VStr sep) (Some n)
  = Some (map (fun v => substring_index v (VStr sep) (Some n)) rows).
Proof.
  intros NE R. unfold v_substring_index. cbn [is_null nnull orb get_string num64].
  replace ((length sep =? 0)%nat || (n =? 0)) with false.
  - apply index_rows_same; assumption.
  - destruct sep; [congruence|]. cbn. lia.
Qed.

(** A negative count is right for the first row only. *)
Lemma substring_index_one sep n s : sep <> [] -> - 2^31 < n < 0 ->
  v_substring_index [VStr s] (VStr sep) (Some n)
  = Some [substring_index (VStr s) (VStr sep) (Some n)].
Proof.
  intros NE R. unfold v_substring_index, substring_index, num32.
  cbn [is_null nnull orb get_string num64]. rewrite to_i32_id by lia.
  replace (n =? 0) with false by lia. destruct sep as [|c f]; [congruence|].
  cbn [length Nat.eqb orb index_rows get_string]. unfold index_row.
  replace (0 <? n) with false by lia. replace (n =? - 2^31) with false by lia. cbv zeta.
  destruct (- n <=? _) eqn:E; [|reflexivity].
  destruct (nth_error _ _) eqn:K; [reflexivity|]. apply nth_error_None in K. lia.
Qed.

Lemma on_row_str f v : is_null v = false -> on_row f v = f (get_string v).
Proof. destruct v; [discriminate| |]; reflexivity. Qed.

Lemma substr_same rows p n :
  1 <= p < 2^31 -> match n with None => True | Some n => - 2^31 <= n < 2^31 end ->
  Forall (fun v => len (get_string v) < 2^31) rows ->
  v_substr rows (Some p) (option_map Some n)
  = map (fun v => substr v (Some p) (option_map Some n)) rows.
Proof.
  intros RP RN LS. unfold v_substr. cbn [num64]. replace (0 <? p) with true by lia. cbv zeta.
  apply map_ext_in. intros v IN. rewrite Forall_forall in LS. specialize (LS v IN).
  destruct (is_null v) eqn:NV; [destruct v; [reflexivity|discriminate|discriminate]|].
  rewrite on_row_str by exact NV. unfold substr, num32. rewrite NV. cbn [orb nnull].
  assert (Z0 : match option_map (@Some Z) n with Some None => true | _ => false end = false)
    by (destruct n; reflexivity).
  rewrite Z0, to_i32_id by lia. cbv zeta. replace (p <? 0) with false by lia.
  set (s := get_string v) in *. clearbody s. pose proof (len_nonneg s) as LN.
  destruct n as [n|]; cbn [option_map num64].
  - rewrite to_i32_id by lia.
    assert (OV : (2^63 - 1 <? (if n <? 0 then p - 1 else p - 1 + n)) = false)
      by (destruct (n <? 0); lia).
    rewrite OV. unfold slice. replace (p - 1 <? 0) with false by lia.
    replace ((if n <? 0 then p - 1 else p - 1 + n) <? 0) with false by (destruct (n <? 0) eqn:?; lia).
    destruct (false || (len s <=? p - 1)) eqn:OUT; cbn [orb] in OUT; cbv iota.
    + rewrite (skipn_all2 s) by (unfold len in *; lia). rewrite firstn_nil. reflexivity.
    + replace (Z.max 0 (Z.min (len s) (p - 1))) with (p - 1) by lia.
      destruct (n <=? 0) eqn:EN.
      * replace (Z.to_nat (Z.max 0 (Z.min (len s) (if n <? 0 then p - 1 else p - 1 + n)) - (p - 1)))
          with 0%nat by (destruct (n <? 0) eqn:?; lia). reflexivity.
      * replace (n <? 0) with false by lia. f_equal.
        destruct (Z.leb_spec n (len s - (p - 1))).
        -- f_equal. lia.
        -- rewrite !firstn_all2; [reflexivity| |]; rewrite skipn_length; unfold len in *; lia.
  - change (2^63 - 1 <? 2^63 - 1) with false. cbv iota. unfold slice.
    replace (p - 1 <? 0) with false by lia. change (2^63 - 1 <? 0) with false. cbv iota.
    destruct (false || (len s <=? p - 1)) eqn:OUT; cbn [orb] in OUT; cbv iota.
    + rewrite (skipn_all2 s) by (unfold len in *; lia). rewrite firstn_nil. reflexivity.
    + replace (Z.max 0 (Z.min (len s) (p - 1))) with (p - 1) by lia.
      rewrite firstn_all2; [reflexivity|]. rewrite skipn_length. unfold len in *. lia.
Qed.
