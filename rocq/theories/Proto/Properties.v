(* C28, C45-C48: the MySQL protocol. *)
From Coq Require Import ZArith List Bool Lia.
From Verif Require Import Common.Bytes Date.Model Date.Spec Date.Reading Date.ProofsCal Proto.Spec Proto.Model Proto.Reading
  Proto.ProofsText Proto.ProofsRead Proto.ProofsBin Proto.ProofsExec.
Import ListNotations.
Local Open Scope Z_scope.

(* ---------- C28: text rows ---------- *)

(* A client reads back the length and the string that were written, whatever follows *)
Theorem C28_length : forall n t, 0 <= n < 2 ^ 64 -> lenenc_int (length_coded_binary n ++ t) = Some (Some n, t).
Proof. intros n t H. rewrite length_coded_lenenc by lia. apply lenenc_int_app. exact H. Qed.
Print Assumptions C28_length.
Theorem C28_string : forall b s is_null b', pack_length_coded_string b s is_null = Some b' ->
  exists written, b' = b ++ written /\ forall t, lenenc_str (written ++ t) = Some (if is_null then None else Some s, t).
Proof.
  intros b s [|] b' H.
  - apply append_ok in H as [-> _]. exists [251]. split; reflexivity.
  - apply pack_str_ok in H as [-> L]. exists (str_bytes s). split; [reflexivity|]. intros t. unfold str_bytes in *.
    rewrite <- app_assoc. apply lenenc_str_app. rewrite !app_length in L. unfold MAX_ALLOC_BUF_SIZE in L. change (2 ^ 31) with 2147483648 in L. lia.
Qed.
Print Assumptions C28_string.
(* Numbers are written as the decimal text of that number *)
Theorem C28_int_text : forall v, - 2 ^ 63 <= v < 2 ^ 63 -> dec_value (to_string_int64 v) = Some v.
Proof. intros v H. apply to_string_int64_ok, H. Qed.
Print Assumptions C28_int_text.
Theorem C28_uint_text : forall v, 0 <= v < 2 ^ 64 -> dec_value (to_string_uint64 v) = Some v.
Proof. intros v H. apply to_string_uint64_ok, H. Qed.
Print Assumptions C28_uint_text.
(* A row of a query result: the packets appended to the buffer reassemble to a body in which
   the client finds exactly the row's values, NULLs distinct from empty strings; the sequence
   number of the last packet is the one the server goes on from. *)
Theorem C28_text_row : forall b packet_id row b' packet_id', Forall in_range row ->
  pack_text_row b packet_id row = Some (b', packet_id') ->
  exists frames body values, b' = b ++ frames /\
    (forall t, read_message (packet_id + 1) (frames ++ t) = Some (body, packet_id', t)) /\
    text_row (length row) body = Some (values, []) /\ Forall2 reads_as row values.
Proof.
  intros b pid row b' pid' F H. destruct (text_row_packets b pid row b' pid' F H) as (fr&body&E&R&T).
  exists fr, body, (map cell_text row). split; [exact E|]. split; [exact R|]. split; [exact T|].
  clear -F. induction F as [|c row P F IH]; cbn [map]; constructor; [|exact IH].
  destruct c as [|s|v|v]; cbn [cell_text]; constructor; cbn [in_range] in P; auto.
  - apply to_string_int64_ok, P.
  - apply to_string_uint64_ok, P.
Qed.
Print Assumptions C28_text_row.
(* It fails only if the buffer would exceed 2^31 bytes *)
Theorem C28_text_row_succeeds : forall b packet_id row, Forall in_range row ->
  let size := Z.of_nat (length (concat (map cell_bytes row))) in
  Z.of_nat (length b) + 4 + size + 4 * (size / 0xffffff) <= 2 ^ 31 ->
  exists r, pack_text_row b packet_id row = Some r.
Proof. intros b pid row F size L. apply text_row_runs; [exact F|]. unfold size, MAX_ALLOC_BUF_SIZE in *. lia. Qed.
Print Assumptions C28_text_row_succeeds.
(* Rows of SHOW and other commands answered by the query server itself (no NULLs among them)
   arrive intact if no value is empty ... *)
Theorem C28_show_row_partial : forall row b b', make_row_values b row = Some b' -> (forall s, In s row -> s <> []) ->
  exists body, b' = b ++ body /\ text_row (length row) body = Some (map Some row, []).
Proof.
  intros row b b' H N. destruct (make_row_ok row b b' H) as [-> L]. eexists. split; [reflexivity|].
  rewrite <- (app_nil_r (concat _)). rewrite make_row_reads.
  - do 2 f_equal. apply map_ext_in. intros s Hs. specialize (N s Hs). destruct s; [congruence|reflexivity].
  - destruct row as [|s row]; [cbn; lia|]. specialize (L ltac:(discriminate)). rewrite app_length in L. unfold MAX_ALLOC_BUF_SIZE in L. change (2 ^ 31) with 2147483648 in L. lia.
Qed.
Print Assumptions C28_show_row_partial.
(* ... but an empty string arrives as NULL *)
Theorem C28_show_row_refuted : exists b', make_row_values [] [[]] = Some b' /\ text_row 1 b' = Some ([None], []).
Proof. eexists. split; reflexivity. Qed.
Print Assumptions C28_show_row_refuted.
Example C28_nonvacuous :
  pack_text_row [7; 7] 4 [CNull; CText []; CText [97; 98]; CInt (-120); CUint 18446744073709551615] =
    Some ([7; 7] ++ [31; 0; 0; 5] ++ [251] ++ [0] ++ [2; 97; 98] ++ [4; 45; 49; 50; 48] ++
          [20; 49;56;52;52;54;55;52;52;48;55;51;55;48;57;53;53;49;54;49;53], 5) /\
  lenenc_int (length_coded_binary 250) = Some (Some 250, []) /\ length_coded_binary 251 = [252; 251; 0] /\
  length_coded_binary 65536 = [253; 0; 0; 1] /\ length_coded_binary 16777216 = [254; 0; 0; 0; 1; 0; 0; 0; 0].
Proof. vm_compute. auto 10. Qed.

(* ---------- C45: binary rows and packets ---------- *)

(* A row of a prepared statement's result: the client decodes exactly the stored values, each
   according to its column type, with the NULLs where they are *)
Theorem C45_binary_row_partial : forall b packet_id cols b' packet_id' values,
  Forall2 (fun c v => shows (fst c) (snd c) v /\ sent_in_full v) cols values ->
  pack_binary_row b packet_id cols = Some (b', packet_id') ->
  exists frames body, b' = b ++ frames /\
    (forall t, read_message (packet_id + 1) (frames ++ t) = Some (body, packet_id', t)) /\
    binary_row (map fst cols) body = Some (values, []).
Proof. exact (fun b pid cols b' pid' vals => binary_row_packets b pid cols b' pid' vals). Qed.
Print Assumptions C45_binary_row_partial.
(* What [sent_in_full] excludes.  The microseconds of a DATETIME are not sent: *)
Theorem C45_fraction_refuted : exists cols v w b' pid body,
  Forall2 (fun c v => shows (fst c) (snd c) v) cols [v] /\ pack_binary_row [] 0 cols = Some (b', pid) /\
  read_message 1 b' = Some (body, pid, []) /\ binary_row (map fst cols) body = Some ([w], []) /\
  v = BDate 2024 2 29 23 59 58 123456 /\ w = BDate 2024 2 29 23 59 58 0.
Proof.
  exists [(T_DATETIME, KNum (pack (mk_dtf 2024 2 29 23 59 58 123456)))], (BDate 2024 2 29 23 59 58 123456), (BDate 2024 2 29 23 59 58 0).
  eexists. eexists. eexists. split.
  - constructor; [|constructor]. cbn [fst snd]. apply (sh_datetime (mk_dtf 2024 2 29 23 59 58 123456)).
    unfold fields_ok, valid_fields, valid_tod. cbn [f_year f_month f_day f_hour f_minute f_second f_micro]. lia.
  - split; [vm_compute; reflexivity|]. split; [vm_compute; reflexivity|]. split; [vm_compute; reflexivity|]. split; reflexivity.
Qed.
Print Assumptions C45_fraction_refuted.
(* and a TIME of 24:00:00 (one day) is sent as 00:00:00: *)
Theorem C45_whole_days_refuted : exists cols v w b' pid body,
  Forall2 (fun c v => shows (fst c) (snd c) v) cols [v] /\ pack_binary_row [] 0 cols = Some (b', pid) /\
  read_message 1 b' = Some (body, pid, []) /\ binary_row (map fst cols) body = Some ([w], []) /\
  v = BTime false 1 0 0 0 0 /\ w = BTime false 0 0 0 0 0.
Proof.
  exists [(T_TIME, KNum (pack_time 24 0 0 false))], (BTime false 1 0 0 0 0), (BTime false 0 0 0 0 0).
  eexists. eexists. eexists. split.
  - constructor; [|constructor]. cbn [fst snd]. apply sh_time; [lia..|discriminate|vm_compute; reflexivity].
  - split; [vm_compute; reflexivity|]. split; [vm_compute; reflexivity|]. split; [vm_compute; reflexivity|]. split; reflexivity.
Qed.
Print Assumptions C45_whole_days_refuted.
(* The value 0 of a TIMESTAMP, shown as 0000-00-00 00:00:00 in text, is sent as 1970-01-01 08:00:00 *)
Theorem C45_zero_timestamp_refuted : exists b' pid body,
  unpack (timestamp_to_datetime 0) = mk_dtf 0 0 0 0 0 0 0 /\ pack_binary_row [] 0 [(T_TIMESTAMP, KNum 0)] = Some (b', pid) /\
  read_message 1 b' = Some (body, pid, []) /\ binary_row [T_TIMESTAMP] body = Some ([BDate 1970 1 1 8 0 0 0], []).
Proof.
  eexists. eexists. eexists. split; [vm_compute; reflexivity|]. split; [vm_compute; reflexivity|]. split; vm_compute; reflexivity.
Qed.
Print Assumptions C45_zero_timestamp_refuted.
(* Other answers are sent as one packet: intact below 2^24-1 bytes ... *)
Theorem C45_packet_partial : forall b data packet_id b', network_queue_send_append b data packet_id = Some b' ->
  Z.of_nat (length data) < 0xffffff ->
  exists frames, b' = b ++ frames /\ forall t, read_message packet_id (frames ++ t) = Some (data, packet_id, t).
Proof. exact (fun b data pid b' => send_append_ok b data pid b'). Qed.
Print Assumptions C45_packet_partial.
(* ... but from 2^24 bytes on the client is told a length that is wrong by a multiple of 2^24 *)
Theorem C45_packet_refuted : forall data, Z.of_nat (length data) = 2 ^ 24 ->
  exists b', network_queue_send_append [] data 1 = Some b' /\ read_message 1 b' = Some ([], 1, data).
Proof.
  intros data L. destruct data as [|x d]; [discriminate|]. set (p := x :: d) in *.
  exists ([0; 0; 0; 1] ++ p). unfold network_queue_send_append, p. fold p. cbv zeta. rewrite L.
  change (byte_at 0 (2 ^ 24)) with 0. change (byte_at 1 (2 ^ 24)) with 0. change (byte_at 2 (2 ^ 24)) with 0. change (Z.land 1 255) with 1.
  change (append [] [0; 0; 0; 1]) with (Some [0; 0; 0; 1]). cbv iota. split.
  - apply append_ok. split; [reflexivity|]. rewrite app_length. cbn [length]. unfold MAX_ALLOC_BUF_SIZE. change (2 ^ 31) with 2147483648. change (2 ^ 24) with 16777216 in L. lia.
  - apply (message_read 1). reflexivity.
Qed.
Print Assumptions C45_packet_refuted.
Example C45_nonvacuous :
  let cols := [(T_LONGLONG, KNum 18446744073709551615); (T_STRING, KNull); (T_VAR_STRING, KStr []); (T_DATE, KNum (datetime_to_date (pack (mk_dtf 2024 2 29 0 0 0 0))));
               (T_TIME, KNum (pack_time 49 5 6 true)); (T_TIMESTAMP, KNum (instant 19782 23 59 58)); (T_TINY, KNull); (T_DOUBLE, KNum 4607182418800017408)] in
  let vals := [BInt 18446744073709551615; BNull; BStr []; BDate 2024 2 29 0 0 0 0; BTime true 2 1 5 6 0; BDate 2024 2 29 23 59 58 0; BNull; BInt 4607182418800017408] in
  Forall2 (fun c v => shows (fst c) (snd c) v /\ sent_in_full v) cols vals /\
  exists b' pid body, pack_binary_row [] 255 cols = Some (b', pid) /\ read_message 256 b' = Some (body, pid, []) /\ binary_row (map fst cols) body = Some (vals, []).
Proof.
  cbv zeta. split.
  - constructor; [split; [apply (sh_num T_LONGLONG 8%nat); [reflexivity|cbn; lia]|exact Logic.I]|].
    constructor; [split; [apply sh_null|exact Logic.I]|].
    constructor; [split; [apply sh_text; right; right; reflexivity|exact Logic.I]|].
    constructor; [split; [apply (sh_date 2024 2 29); lia|reflexivity]|].
    constructor; [split; [apply sh_time; [lia..|vm_compute; reflexivity]|right; cbn; lia]|].
    constructor; [split; [apply sh_timestamp; [apply ProofsCal.day_is_iff; split; [cbn; lia|reflexivity]|unfold valid_tod; lia|lia]|reflexivity]|].
    constructor; [split; [apply sh_null|exact Logic.I]|].
    constructor; [split; [apply (sh_num T_DOUBLE 8%nat); [reflexivity|cbn; lia]|exact Logic.I]|].
    constructor.
  - eexists. eexists. eexists. split; [vm_compute; reflexivity|]. split; vm_compute; reflexivity.
Qed.

(* ---------- C46: receiving a request ---------- *)

(* However the bytes of a request arrive - in any pieces, with any pauses, cut into packets at
   2^24-1 bytes - the server sees exactly the request and has consumed nothing of what follows *)
Theorem C46_request : forall chunks p rest, concat chunks = send_message p ++ rest ->
  Z.of_nat (length p) + 8 <= 2 ^ 31 ->
  exists c chunks', read_request (S (length chunks)) conn_init chunks = (RET_SUCCESS, c, chunks') /\
    skipn 4 (self_buf c) = p /\ packet_len c = Z.of_nat (length p) /\ concat chunks' = rest.
Proof.
  intros s p rest E Fit. destruct (request_from_start s p rest Fit E) as (c'&s'&R&(D1&_&D3&_&_&D4)).
  exists c', s'. auto.
Qed.
Print Assumptions C46_request.
Example C46_nonvacuous :
  let p := [3; 115; 101; 108] in
  concat [[4]; []; [0; 0; 0; 3]; [115; 101]; []; [108; 9; 9]] = send_message p ++ [9; 9] /\
  exists c s, read_request 7 conn_init [[4]; []; [0; 0; 0; 3]; [115; 101]; []; [108; 9; 9]] = (RET_SUCCESS, c, s) /\
    self_buf c = [0; 0; 0; 0; 3; 115; 101; 108] /\ concat s = [9; 9].
Proof. cbv zeta. split; [reflexivity|]. eexists. eexists. split; [vm_compute; reflexivity|]. split; reflexivity. Qed.

(* ---------- C47: parameters of prepared statements ---------- *)

(* The statement is executed with the values the client sent, for every list of parameters of
   the supported types, with types sent now or bound before, whatever the buffer holds behind
   the packet *)
Theorem C47_parameters_partial : forall header stale stmt send_types ps pars bound,
  length header = 4%nat -> 0 <= stmt < 2 ^ 32 ->
  Forall2 (fun p q => passes (fst (fst p)) (snd (fst p)) (snd p) q) ps pars ->
  (send_types = false -> bound = map (fun p => (Some (fst (fst p)), snd (fst p))) ps) ->
  let packet := header ++ execute_bytes stmt send_types ps in
  Z.of_nat (length packet) < 2 ^ 32 ->
  exists bound', stmt_execute (packet ++ stale) (length packet) 5 (length ps) bound = Ok (stmt, pars, bound') /\
    (ps <> [] -> bound' = map (fun p => (Some (fst (fst p)), snd (fst p))) ps).
Proof.
  intros hdr stale stmt st ps pars bound Lh Hs F Hb packet Lp.
  eexists. split.
  - apply (execute_ok (packet ++ stale) (length packet) Lp 5 stmt st ps pars bound).
    + unfold packet in *. split.
      * unfold execute_bytes. rewrite (app_length hdr), Lh. cbn [app skipn length]. lia.
      * exists (hdr ++ [23]), stale. split; [|rewrite app_length, Lh; reflexivity].
        unfold execute_bytes. cbn [app skipn]. rewrite <- !app_assoc. reflexivity.
    + exact Hs.
    + exact F.
    + intros _ E. exact (Hb E).
  - intros N. destruct ps; [congruence|reflexivity].
Qed.
Print Assumptions C47_parameters_partial.
(* What [passes] leaves out: a TIME of zero, sent as length 0, makes the server skip a byte of
   the next parameter; the statement runs with other values.  Here the client sends
   TIME 00:00:00, 5 and a one-byte string; the statement gets 00:00:00, 1 and the empty string. *)
Theorem C47_zero_time_refuted : exists bound',
  let ps := [(T_TIME, false, BTime false 0 0 0 0 0); (T_TINY, false, BInt 5); (T_STRING, false, BStr [0])] in
  let packet := [0; 0; 0; 0] ++ execute_bytes 1 true ps in
  stmt_execute packet (length packet) 5 3 [] = Ok (1, [PTime 0; PInt true 1 1; PStr []], bound').
Proof. eexists. vm_compute. reflexivity. Qed.
Print Assumptions C47_zero_time_refuted.
(* A string length near 2^64 passes the bounds check, and memory beyond the buffer is read *)
Theorem C47_huge_length_refuted : exists packet, Forall is_byte packet /\
  stmt_execute packet (length packet) 5 1 [] = Ub.
Proof.
  exists ([0; 0; 0; 0; 23; 1; 0; 0; 0; 0; 1; 0; 0; 0; 0; 1; 254; 0] ++ [254; 255; 255; 255; 255; 255; 255; 255; 255]).
  split; [repeat constructor; cbn; lia|vm_compute; reflexivity].
Qed.
Print Assumptions C47_huge_length_refuted.
(* The types are taken from behind the packet if it is too short: the same packet means
   different things depending on what an earlier request left in the buffer *)
Theorem C47_short_types_refuted : exists packet stale1 stale2,
  stmt_execute (packet ++ stale1) (length packet) 5 1 [] <> stmt_execute (packet ++ stale2) (length packet) 5 1 [] /\
  stmt_execute packet (length packet) 5 1 [] = Ub.
Proof.
  exists [0; 0; 0; 0; 23; 1; 0; 0; 0; 0; 1; 0; 0; 0; 0; 1], [6; 0], [1; 0]. split; vm_compute; [discriminate|reflexivity].
Qed.
Print Assumptions C47_short_types_refuted.
(* No other type of parameter makes the server read outside the packet *)
Theorem C47_no_overread_partial : forall data packet_len t is_unsigned off, (packet_len <= length data)%nat ->
  ~ (exists t', t = Some t' /\ text_type t') -> decode_value data packet_len t is_unsigned off <> Ub.
Proof.
  intros data plen t u off L N. apply decode_safe; [exact L|intros ->; apply N; eexists; (split; [reflexivity|]); unfold text_type; auto ..].
Qed.
Print Assumptions C47_no_overread_partial.
Definition ps1 : list (mtype * bool * bval) :=
  [(T_TINY, false, BInt (-3)); (T_NULL, false, BNull); (T_LONGLONG, true, BInt 18446744073709551615); (T_VAR_STRING, false, BStr [97; 0; 98]);
   (T_DATETIME, false, BDate 2024 2 29 23 59 58 123456); (T_TIME, false, BTime true 34 22 59 59 0); (T_DATE, false, BDate 0 0 0 0 0 0 0);
   (T_SHORT, false, BNull); (T_DOUBLE, false, BInt 4607182418800017408)].
Definition pars1 : list param :=
  [PInt true 1 (-3); PNull; PInt false 8 18446744073709551615; PStr [97; 0; 98]; PDatetime (pack (mk_dtf 2024 2 29 23 59 58 123456));
   PTime (pack_time 838 59 59 true); PDatetime 0; PNull; PReal 8 4607182418800017408].
Example C47_nonvacuous :
  Forall2 (fun p q => passes (fst (fst p)) (snd (fst p)) (snd p) q) ps1 pars1 /\
  let packet := [9; 9; 9; 9] ++ execute_bytes 77 true ps1 in
  stmt_execute (packet ++ [1; 2; 3]) (length packet) 5 9 [] = Ok (77, pars1, map (fun p => (Some (fst (fst p)), snd (fst p))) ps1).
Proof.
  split; [|vm_compute; reflexivity]. unfold ps1, pars1.
  constructor; [apply (pa_int T_TINY false 1%nat); [left; reflexivity|reflexivity|cbn; lia]|].
  constructor; [apply pa_null|].
  constructor; [apply (pa_int T_LONGLONG true 8%nat); [unfold int_type; auto 10|reflexivity|cbn; lia]|].
  constructor; [apply pa_text; [right; right; reflexivity|cbn; lia]|].
  constructor; [apply pa_date; [auto|unfold valid_fields, valid_tod; lia|lia|lia]|].
  constructor; [apply (pa_time false true 34 22 59 59 0); lia|].
  constructor; [apply pa_no_date; auto|].
  constructor; [apply pa_null|].
  constructor; [apply (pa_real T_DOUBLE false 8%nat); [right; reflexivity|reflexivity|cbn; lia]|].
  constructor.
Qed.

(* ---------- C48: login ---------- *)

(* Whatever bytes a client sends as its login, the server reads nothing outside the packet, and
   accepts only a known user whose address is allowed and whose twenty bytes of response are
   exactly the expected ones *)
Theorem C48_login_sound : forall data packet_len users allowed, (packet_len <= length data)%nat ->
  auth_read data packet_len users allowed <> Ub /\
  (forall user, auth_read data packet_len users allowed = Ok user ->
     exists scramble, users user = Some scramble /\ allowed user = true /\ length scramble = 20%nat /\
       (36 + length user + 22 <= packet_len)%nat /\ firstn (length user + 22) (skipn 36 data) = user ++ [0; 20] ++ scramble).
Proof.
  intros data plen users allowed L. destruct (auth_facts data plen L users allowed (or_intror Logic.I)) as [->|(u&sc&->&Us&Al&Ls&_&Lp&E)].
  - split; discriminate.
  - split; [discriminate|]. intros user [= <-]. exists sc. auto 10.
Qed.
Print Assumptions C48_login_sound.
(* A user who answers correctly is let in *)
Theorem C48_login_complete : forall header caps fixed user scramble db stale users allowed,
  length header = 4%nat -> 0 <= caps < 2 ^ 32 -> length fixed = 28%nat ->
  ~ In 0 user -> (length user < 1024)%nat -> length scramble = 20%nat -> ~ In 0 db -> (length db < 1024)%nat ->
  users user = Some scramble -> allowed user = true ->
  let packet := header ++ login_bytes caps fixed user scramble db in
  auth_read (packet ++ stale) (length packet) users allowed = Ok user.
Proof.
  intros hdr caps fixed user sc db stale users allowed Lh Hc Lf Nu Lu Ls Nd Ld Us Al packet. unfold packet. rewrite <- app_assoc, app_length, Lh.
  apply login_ok; auto.
Qed.
Print Assumptions C48_login_complete.
Example C48_nonvacuous :
  let sc := repeat 7 20 in
  let users u := if list_eq_dec Z.eq_dec u [114] then Some sc else None in
  let packet := [0;0;0;0] ++ login_bytes 8 (repeat 0 28) [114] sc [100; 98] in
  auth_read packet (length packet) users (fun _ => true) = Ok [114] /\
  auth_read packet (length packet - 4) users (fun _ => true) = Err /\
  auth_read ([0;0;0;0] ++ login_bytes 0 (repeat 0 28) [114] (repeat 8 20) []) 59 users (fun _ => true) = Err.
Proof. vm_compute. auto. Qed.
