(* C23, C24: LIKE. *)
From Verif.Common Require Import Bytes.
From Verif.Like Require Import Model Spec Proofs Proofs2.
Local Open Scope Z_scope.

(* C23.  s LIKE p holds exactly when s is generated by p, read byte by byte ... *)
Theorem C23_like_bytes : forall t p,
  like_one CBinary t p = true <-> matches (items (bytes_of p)) (bytes_of t).
Proof. exact like_one_bytes. Qed.
Print Assumptions C23_like_bytes.

(* ... or character by character for well-formed UTF-8 ... *)
Theorem C23_like_utf8 : forall tc pc, Forall utf8_char tc -> Forall utf8_char pc ->
  (like_one CUtf8 (concat tc) (concat pc) = true <-> matches (items pc) tc).
Proof. exact (like_one_wf CUtf8). Qed.
Print Assumptions C23_like_utf8.

(* ... and well-formed GBK texts *)
Theorem C23_like_gbk : forall tc pc, Forall gbk_char tc -> Forall gbk_char pc ->
  (like_one CGbk (concat tc) (concat pc) = true <-> matches (items pc) tc).
Proof. exact (like_one_wf CGbk). Qed.
Print Assumptions C23_like_gbk.

(* on ill-formed texts too, TRUE means that some reading of both texts matches *)
Theorem C23_true_any : forall cs t p, bytes_ok t -> bytes_ok p -> like_one cs t p = true ->
  exists us vs,
    reading (char_of cs) t us /\
    reading (char_of cs) p vs /\
    matches (items vs) us.
Proof. exact true_reading. Qed.
Print Assumptions C23_true_any.

(* the matcher always stops: the back-tracking loop never runs longer than its bound *)
Theorem C23_terminates : forall cs t p, like cs t p <> AFuel.
Proof. exact like_terminates. Qed.
Print Assumptions C23_terminates.

(* on NULL the code does not answer NULL: NULL LIKE '%' is TRUE *)
Theorem C23_null_refuted : exists cs p, like_value cs None (Some p) = Some true /\ like_value cs None (Some [97]) = Some false.
Proof. exists CBinary, [37]. split; vm_compute; reflexivity. Qed.
Print Assumptions C23_null_refuted.

(* C24.  A string that matches the pattern is among those the index is asked for *)
Theorem C24_no_row_lost : forall cs t p, cs <> CGbk -> like_one cs t p = true ->
  match index_for_like p with
  | IREqual s => lone_escape p = false -> t = s
  | IRPrefix s => starts_with s t
  | IRAll => True
  end.
Proof. exact served. Qed.
Print Assumptions C24_no_row_lost.

Theorem C24_no_row_lost_gbk : forall t pc, Forall gbk_char pc -> (forall a, ~ In [a; 92] pc) ->
  like_one CGbk t (concat pc) = true ->
  match index_for_like (concat pc) with
  | IREqual s => lone_escape (concat pc) = false -> t = s
  | IRPrefix s => starts_with s t
  | IRAll => True
  end.
Proof. exact served_gbk. Qed.
Print Assumptions C24_no_row_lost_gbk.

(* when the LIKE is replaced by an equality it is one (the LIKE itself is dropped) *)
Theorem C24_equality : forall cs pc s t,
  Forall (char_of cs) pc ->
  (cs = CGbk -> forall a, ~ In [a; 92] pc) ->
  index_for_like (concat pc) = IREqual s -> lone_escape (concat pc) = false ->
  (like_one cs t (concat pc) = true <-> t = s).
Proof. exact served_eq. Qed.
Print Assumptions C24_equality.

(* a pattern whose last byte is an unescaped backslash is turned into the wrong equality *)
Theorem C24_lone_escape_refuted : exists p s t, index_for_like p = IREqual s /\
  like_one CUtf8 t p = true /\ t <> s /\ like_one CUtf8 s p = false.
Proof. exists [97; 98; 92], [97; 98], [97; 98; 92]. repeat split; try (vm_compute; reflexivity). discriminate. Qed.
Print Assumptions C24_lone_escape_refuted.

(* a GBK character whose second byte is 0x5C is taken for an escape *)
Theorem C24_gbk_refuted : exists pc tc s, Forall gbk_char pc /\ Forall gbk_char tc /\
  like_one CGbk (concat tc) (concat pc) = true /\ index_for_like (concat pc) = IREqual s /\ s <> concat tc.
Proof.
  exists [[0x81; 0x5C]; [37]], [[0x81; 0x5C]; [65]], [0x81; 37].
  split; [repeat constructor; lia|]. split; [repeat constructor; lia|]. repeat split; try (vm_compute; reflexivity). discriminate.
Qed.
Print Assumptions C24_gbk_refuted.

(* column LIKE 'lo%' rewritten to column >= lo AND column < hi *)
Theorem C24_range_rewrite : forall cs pc tc lo hi,
  Forall (char_of cs) pc ->
  Forall (char_of cs) tc ->
  bytes_ok (concat pc) -> bytes_ok (concat tc) ->
  ~ In 92 (concat pc) -> like_node_optimize (concat pc) = RRange lo hi -> ~ Forall (eq 255) lo ->
  (like_one cs (concat tc) (concat pc) = true <-> in_like_range lo hi (concat tc) = true).
Proof. exact rewrite_ok. Qed.
Print Assumptions C24_range_rewrite.

(* without the two side conditions the rewriting changes the answer: 'a\%' matches only "a%" but
   is rewritten to the range of strings starting with "a%" ... *)
Theorem C24_rewrite_escape_refuted : exists p lo hi t, like_node_optimize p = RRange lo hi /\
  like_one CUtf8 t p = false /\ in_like_range lo hi t = true.
Proof. exists [97; 92; 37], [97; 37], [97; 38], [97; 37; 98]. repeat split; vm_compute; reflexivity. Qed.
Print Assumptions C24_rewrite_escape_refuted.

(* ... a prefix of 0xFF bytes gets the empty upper bound, which loses every row ... *)
Theorem C24_rewrite_ff_refuted : exists p lo t, like_node_optimize p = RRange lo [] /\
  like_one CBinary t p = true /\ in_like_range lo [] t = false.
Proof. exists [255; 37], [255], [255; 1]. repeat split; vm_compute; reflexivity. Qed.
Print Assumptions C24_rewrite_ff_refuted.

(* ... and the empty pattern reads the last byte of an empty string *)
Theorem C24_rewrite_empty_refuted : like_node_optimize [] = RUb.
Proof. reflexivity. Qed.
Print Assumptions C24_rewrite_empty_refuted.

(* non-trivial cases: "%aba_\%" on "ababaX%" needs back-tracking and an escape *)
Example C23_example :
  like_one CUtf8 [97; 98; 97; 98; 97; 0xE4; 0xBD; 0xA0; 37] [37; 97; 98; 97; 95; 92; 37] = true /\
  Forall utf8_char [[97]; [98]; [97]; [98]; [97]; [0xE4; 0xBD; 0xA0]; [37]] /\
  like_one CGbk [0x81; 0x5C; 37] [95; 37] = true /\
  like_one CUtf8 [97; 98] [97; 95; 95] = false.
Proof.
  split; [vm_compute; reflexivity|]. split; [|split; vm_compute; reflexivity].
  repeat (apply Forall_cons || apply Forall_nil); try (apply u1; lia). apply u3; unfold cont; lia.
Qed.
Example C24_example :
  index_for_like [97; 92; 95; 98; 37; 99] = IRPrefix [97; 95; 98] /\
  index_for_like [97; 92; 37] = IREqual [97; 37] /\ lone_escape [97; 92; 37] = false /\
  like_node_optimize [97; 98; 255; 37] = RRange [97; 98; 255] [97; 99].
Proof. repeat split; vm_compute; reflexivity. Qed.
