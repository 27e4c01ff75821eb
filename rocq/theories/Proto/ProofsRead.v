(* Requests arriving in arbitrary pieces. *)
From Coq Require Import ZArith List Bool Lia.
From Verif Require Import Common.Bytes Proto.Spec Proto.Model Proto.ProofsText.
Import ListNotations.
Local Open Scope Z_scope.

Lemma skipn_skipn' {A} n : forall m (l : list A), skipn n (skipn m l) = skipn (m + n) l.
Proof. intros m. induction m as [|m IH]; intros l; [reflexivity|]. destruct l; [cbn; apply skipn_nil|apply IH]. Qed.

Definition sends (q m : list Z) : Prop := exists f seq, (length q < f)%nat /\ m = send f seq q.

(* [c] has read part of a request [p] and the rest of it, followed by [rest], is [st] *)
Definition at_head (c : conn) (st p rest : list Z) : Prop :=
  (length (header c) < 4)%nat /\ packet_read_len c = 0 /\
  (self_buf c = header c \/ 4 <= length (self_buf c))%nat /\
  packet_len c = Z.of_nat (length (skipn 4 (self_buf c))) /\
  exists q m, sends q m /\ header c ++ st = m ++ rest /\ p = skipn 4 (self_buf c) ++ q.
Definition at_body (c : conn) (st p rest : list Z) : Prop :=
  length (header c) = 4%nat /\ (4 <= length (self_buf c))%nat /\
  has_multi_packet c = (current_packet_len c =? 0xffffff) /\
  exists r tail, st = r ++ tail /\ Z.of_nat (length r) = current_packet_len c - packet_read_len c /\
    packet_len c = Z.of_nat (length (skipn 4 (self_buf c)) + length r) /\
    (has_multi_packet c = false /\ tail = rest /\ p = skipn 4 (self_buf c) ++ r \/
     has_multi_packet c = true /\ exists q m, sends q m /\ tail = m ++ rest /\ p = skipn 4 (self_buf c) ++ r ++ q).
(* the request is complete *)
Definition complete (c : conn) (st p rest : list Z) : Prop :=
  skipn 4 (self_buf c) = p /\ (4 <= length (self_buf c))%nat /\ packet_len c = Z.of_nat (length p) /\ header c = [] /\ packet_read_len c = 0 /\ st = rest.

Lemma send_head q m rest : sends q m -> exists n sq body tail,
  m ++ rest = le_bytes 3 n ++ [sq] ++ body ++ tail /\ Z.of_nat (length body) = n /\ 0 <= n <= 0xffffff /\
  (n <> 0xffffff /\ tail = rest /\ q = body \/ n = 0xffffff /\ exists q' m', sends q' m' /\ tail = m' ++ rest /\ q = body ++ q').
Proof.
  intros (f&seq&L&->). destruct f as [|f]; [lia|]. cbn [send].
  destruct (Z.leb_spec 0xffffff (Z.of_nat (length q))) as [G|G].
  - set (M := Z.to_nat 0xffffff) in *. assert (ME : Z.of_nat M = 0xffffff) by (unfold M; lia). clearbody M.
    exists 0xffffff, (seq mod 256), (firstn M q), (send f (seq + 1) (skipn M q) ++ rest).
    rewrite <- !app_assoc. split; [reflexivity|]. split; [rewrite firstn_length; lia|]. split; [lia|]. right. split; [reflexivity|].
    exists (skipn M q), (send f (seq + 1) (skipn M q)). split; [|split; [reflexivity|symmetry; apply firstn_skipn]].
    exists f, (seq + 1). split; [rewrite skipn_length; lia|reflexivity].
  - exists (Z.of_nat (length q)), (seq mod 256), q, rest. rewrite <- !app_assoc. split; [reflexivity|]. split; [reflexivity|].
    split; [lia|]. left. split; [lia|]. split; reflexivity.
Qed.

(* a read: some bytes of the stream and, if fewer than wanted, one chunk less *)
Lemma sys_read_ok want s got s' : (0 < want)%nat -> sys_read want s = (Some got, s') ->
  concat s = got ++ concat s' /\ (0 < length got <= want)%nat /\ (length s' <= length s)%nat /\
  ((length got < want)%nat -> (length s' < length s)%nat).
Proof.
  intros W H. destruct s as [|[|x c] s0]; [discriminate|discriminate|]. cbn [sys_read] in H.
  assert (Hn : (0 < length (firstn want (x :: c)))%nat) by (rewrite firstn_length; cbn [length]; lia).
  assert (Hw : (length (firstn want (x :: c)) <= want)%nat) by (rewrite firstn_length; lia).
  destruct (skipn want (x :: c)) as [|y r] eqn:E; injection H as <- <-; cbn [concat length].
  - split; [rewrite <- (firstn_skipn want (x :: c)) at 1; rewrite E, app_nil_r; reflexivity|]. split; [lia|]. split; lia.
  - split; [rewrite <- (firstn_skipn want (x :: c)) at 1; rewrite E, <- app_assoc; reflexivity|]. split; [lia|]. split; [lia|].
    intros L. exfalso. assert (length (skipn want (x :: c)) = S (length r)) by (rewrite E; reflexivity).
    rewrite skipn_length, firstn_length in *. lia.
Qed.
Lemma sys_read_none want s s' : sys_read want s = (None, s') ->
  concat s = concat s' /\ (s <> [] -> length s' < length s)%nat.
Proof.
  intros H. destruct s as [|[|x c] s0]; cbn [sys_read] in H.
  - injection H as <-. split; [reflexivity|congruence].
  - injection H as <-. split; [reflexivity|cbn; lia].
  - destruct (skipn want (x :: c)); discriminate.
Qed.

Lemma lor3 a b c : 0 <= a < 256 -> 0 <= b < 256 -> 0 <= c < 256 ->
  Z.lor (Z.lor a (Z.shiftl b 8)) (Z.shiftl c 16) = a + 256 * (b + 256 * c).
Proof.
  intros Ha Hb Hc. rewrite !Z.shiftl_mul_pow2 by lia.
  assert (E : forall x y k, 0 <= k -> 0 <= x < 2 ^ k -> Z.lor x (y * 2 ^ k) = x + y * 2 ^ k).
  { intros x y k Hk Hx. 
    enough (Z.land x (y * 2 ^ k) = 0) as El by (rewrite Z.add_nocarry_lxor by exact El; symmetry; apply Z.lxor_lor; exact El).
    apply Z.bits_inj'. intros i Hi. rewrite Z.land_spec, Z.bits_0.
    destruct (Z_lt_ge_dec i k) as [L|L].
    - rewrite Z.mul_pow2_bits_low by lia. apply andb_false_r.
    - rewrite <- (Z.mod_small x (2 ^ k)) by lia. rewrite Z.mod_pow2_bits_high by lia. reflexivity. }
  rewrite (E a b 8) by lia. rewrite (E (a + b * 2 ^ 8) c 16); [|lia|]; change (2 ^ 8) with 256; change (2 ^ 16) with 65536; lia.
Qed.
Lemma nth_le3 n sq t : 0 <= n <= 0xffffff ->
  Z.lor (Z.lor (nth 0 (le_bytes 3 n ++ sq :: t) 0) (Z.shiftl (nth 1 (le_bytes 3 n ++ sq :: t) 0) 8))
        (Z.shiftl (nth 2 (le_bytes 3 n ++ sq :: t) 0) 16) = n.
Proof.
  intros Hn. cbn [le_bytes app nth].
  rewrite lor3 by (apply Z.mod_pos_bound; lia). pose proof (le_val_le_bytes 3 n) as E. cbn [le_bytes le_val] in E.
  rewrite (Z.mod_small n (256 ^ Z.of_nat 3)) in E by (change (256 ^ Z.of_nat 3) with 16777216; lia). lia.
Qed.

Lemma app_split_len {A} (a b c d : list A) : a ++ b = c ++ d -> (length a <= length c)%nat -> exists e, c = a ++ e /\ b = e ++ d.
Proof.
  intros H L. exists (skipn (length a) c).
  assert (a = firstn (length a) c) as Ea.
  { transitivity (firstn (length a) (a ++ b)); [rewrite firstn_app, firstn_all, Nat.sub_diag, firstn_O, app_nil_r; reflexivity|].
    rewrite H, firstn_app. replace (length a - length c)%nat with 0%nat by lia. rewrite firstn_O, app_nil_r. reflexivity. }
  split; [rewrite Ea at 1; symmetry; apply firstn_skipn|].
  transitivity (skipn (length a) (a ++ b)); [rewrite skipn_app, skipn_all, Nat.sub_diag; reflexivity|].
  rewrite H, skipn_app. replace (length a - length c)%nat with 0%nat by lia. reflexivity.
Qed.

Definition fits (p : list Z) : Prop := Z.of_nat (length p) + 8 <= MAX_ALLOC_BUF_SIZE.
(* what a call that has to wait leaves behind *)
Definition waiting (c : conn) (s : socket) (s0 : socket) (p rest : list Z) : Prop :=
  (at_head c (concat s) p rest \/ at_body c (concat s) p rest /\ (packet_read_len c < current_packet_len c)) /\
  (length (concat s) <= length (concat s0))%nat /\ (length s <= length s0)%nat /\ (s0 <> [] -> (length s < length s0)%nat).

Lemma header_step c s p rest : fits p -> at_head c (concat s) p rest ->
  exists c' s', (length s' <= length s)%nat /\
   (read_packet_header c s = (RET_WAIT_FOR_EVENT, c', s') /\ waiting c' s' s p rest \/
    read_packet_header c s = (RET_SUCCESS, c', s') /\ at_body c' (concat s') p rest /\ packet_read_len c' = 0 /\ 0 <= current_packet_len c' /\
      (length (concat s') < length (concat s))%nat).
Proof.
  intros Fit (H4&Hr&Hs&Hp&q&m&Hq&Hm&Ep). unfold read_packet_header, PACKET_HEADER_LEN.
  set (want := (4 - length (header c))%nat). assert (W : (0 < want)%nat) by (unfold want; lia).
  assert (Len : Z.of_nat (length (self_buf c) + want) <= MAX_ALLOC_BUF_SIZE).
  { unfold fits in Fit. rewrite Ep, app_length, skipn_length in Fit. unfold want. destruct Hs as [->|Hs]; unfold MAX_ALLOC_BUF_SIZE in *; lia. }
  destruct (Z.leb_spec (Z.of_nat (length (self_buf c) + want)) MAX_ALLOC_BUF_SIZE); [|lia]. cbn [negb].
  destruct (sys_read want s) as [[got|] s'] eqn:Es.
  - destruct (sys_read_ok _ _ _ _ W Es) as (E1&L1&L2&L3).
    set (h := header c ++ got). set (data := h ++ skipn (length h) (self_buf c)).
    assert (Hh : h ++ concat s' = m ++ rest) by (unfold h; rewrite <- app_assoc, <- E1; exact Hm).
    assert (Lh : length h = (length (header c) + length got)%nat) by (unfold h; rewrite app_length; reflexivity).
    assert (Sk : (length h <= 4)%nat -> skipn 4 data = skipn 4 (self_buf c)).
    { intros L. unfold data. rewrite skipn_app, skipn_all2 by lia. cbn [app]. rewrite skipn_skipn'. f_equal. lia. }
    assert (Ld : (length data = Nat.max (length h) (length (self_buf c)))%nat).
    { unfold data. rewrite app_length, skipn_length. lia. }
    destruct (Nat.ltb_spec (length got) want) as [G|G].
    + exists {| self_buf := data; header := h; packet_read_len := packet_read_len c; current_packet_len := current_packet_len c;
        packet_len := packet_len c; packet_seq := packet_seq c; has_multi_packet := has_multi_packet c |}, s'.
      split; [exact L2|]. left. split; [reflexivity|]. unfold waiting. split; [|split; [rewrite E1, app_length; lia|split; [lia|auto]]].
      left. unfold at_head. cbn [header self_buf packet_read_len packet_len].
      rewrite Sk by (unfold want in G; lia). split; [unfold want in G; lia|]. split; [exact Hr|]. split.
      { destruct Hs as [Hs|Hs]; [left|right; lia]. unfold data. rewrite skipn_all2, app_nil_r; [reflexivity|]. rewrite Hs. lia. }
      split; [exact Hp|]. exists q, m. auto.
    + assert (Lh4 : length h = 4%nat) by (unfold want in *; lia).
      destruct (send_head q m rest Hq) as (n&sq&body&tail&Eh&Ln&Hn&Cs). rewrite Eh in Hh.
      destruct (app_split_len h (concat s') (le_bytes 3 n ++ [sq]) (body ++ tail)) as (e&Ee&Et).
      { rewrite Hh, <- app_assoc. reflexivity. }
      { rewrite app_length, le_bytes_length. cbn [length]. lia. }
      assert (e = []) as ->.
      { apply (f_equal (@length Z)) in Ee. rewrite !app_length, le_bytes_length in Ee. cbn [length] in Ee. destruct e; [reflexivity|cbn [length] in Ee; lia]. }
      rewrite app_nil_r in Ee. cbn [app] in Et.
      assert (En : Z.lor (Z.lor (nth 0 h 0) (Z.shiftl (nth 1 h 0) 8)) (Z.shiftl (nth 2 h 0) 16) = n) by (rewrite <- Ee; apply nth_le3; lia).
      rewrite En. cbv zeta.
      exists {| self_buf := repeat 0 4 ++ skipn 4 data; header := h; packet_read_len := packet_read_len c; current_packet_len := n;
        packet_len := packet_len c + n; packet_seq := nth 3 h 0; has_multi_packet := n =? PACKET_LEN_MAX |}, s'.
      split; [exact L2|]. right. split; [reflexivity|]. unfold at_body.
      assert (Sb : skipn 4 (repeat 0 4 ++ skipn 4 data) = skipn 4 (self_buf c)).
      { rewrite <- Sk by lia. rewrite skipn_app. rewrite skipn_all2 by (rewrite repeat_length; lia). rewrite repeat_length. reflexivity. }
      cbn [header self_buf packet_read_len current_packet_len packet_len has_multi_packet]. rewrite Sb. 
      split; [|split; [exact Hr|split; [lia|rewrite E1, app_length; lia]]].
      split; [exact Lh4|]. split; [rewrite app_length, repeat_length; lia|]. split; [reflexivity|].
      exists body, tail. split; [exact Et|]. split; [lia|]. split; [rewrite Hp; lia|]. unfold PACKET_LEN_MAX.
      destruct Cs as [(C1&C2&C3)|(C1&q'&m'&C2&C3&C4)].
      * left. split; [apply Z.eqb_neq; exact C1|]. split; [exact C2|]. rewrite <- C3. exact Ep.
      * right. split; [apply Z.eqb_eq; exact C1|]. exists q', m'. split; [exact C2|]. split; [exact C3|]. rewrite Ep, C4. reflexivity.
  - destruct (sys_read_none _ _ _ Es) as (E1&L1). exists c, s'.
    assert (L2 : (length s' <= length s)%nat).
    { destruct s as [|x s0]; [cbn in Es; injection Es as <-; lia|]. specialize (L1 ltac:(discriminate)). lia. }
    split; [exact L2|]. left. split; [reflexivity|]. split; [|rewrite E1; auto]. left.
    split; [exact H4|]. split; [exact Hr|]. split; [exact Hs|]. split; [exact Hp|]. exists q, m. rewrite <- E1. auto.
Qed.

Lemma body_step c s p rest : fits p -> at_body c (concat s) p rest -> 0 <= packet_read_len c ->
  exists c' s', (length s' <= length s)%nat /\ (length (concat s') <= length (concat s))%nat /\
   (read_packet_body c s = (RET_WAIT_FOR_EVENT, c', s') /\ waiting c' s' s p rest /\ 0 <= packet_read_len c' \/
    read_packet_body c s = (RET_SUCCESS, c', s') /\ has_multi_packet c' = false /\ complete c' (concat s') p rest \/
    read_packet_body c s = (RET_SUCCESS, c', s') /\ has_multi_packet c' = true /\ at_head c' (concat s') p rest).
Proof.
  intros Fit (H4&Hs&Hm&r&tail&Es&Lr&Hp&Cs) Hr0. unfold read_packet_body.
  set (want := current_packet_len c - packet_read_len c) in *.
  assert (Done : forall b s', skipn 4 b = skipn 4 (self_buf c) ++ r -> (4 <= length b)%nat -> concat s' = tail ->
     let c' := {| self_buf := b; header := []; packet_read_len := 0; current_packet_len := current_packet_len c;
                  packet_len := packet_len c; packet_seq := packet_seq c; has_multi_packet := has_multi_packet c |} in
     has_multi_packet c' = false /\ complete c' (concat s') p rest \/ has_multi_packet c' = true /\ at_head c' (concat s') p rest).
  { intros b s' Eb Lb Et. cbn [has_multi_packet]. unfold complete, at_head. cbn [self_buf header packet_read_len packet_len].
    destruct Cs as [(C1&C2&C3)|(C1&q&m&C2&C3&C4)].
    - left. split; [exact C1|]. rewrite Et, C2, Eb. split; [symmetry; exact C3|]. split; [exact Lb|]. split; [|auto]. rewrite Hp, C3, app_length. reflexivity.
    - right. split; [exact C1|]. split; [cbn; lia|]. split; [reflexivity|]. split; [right; exact Lb|].
      rewrite Eb. split; [rewrite Hp, app_length; reflexivity|]. exists q, m. split; [exact C2|]. split; [cbn [app]; rewrite Et; exact C3|].
      rewrite C4, <- app_assoc. reflexivity. }
  destruct (Z.leb_spec want 0) as [G|G].
  - assert (r = []) as -> by (destruct r; [reflexivity|cbn [length] in Lr; lia]).
    exists {| self_buf := self_buf c; header := []; packet_read_len := 0; current_packet_len := current_packet_len c;
                  packet_len := packet_len c; packet_seq := packet_seq c; has_multi_packet := has_multi_packet c |}, s.
    split; [lia|]. split; [lia|]. right.
    destruct (Done (self_buf c) s ltac:(rewrite app_nil_r; reflexivity) Hs Es) as [[D1 D2]|[D1 D2]]; [left|right]; (split; [reflexivity|]; split; assumption).
  - assert (Len : Z.of_nat (length (self_buf c)) + want <= MAX_ALLOC_BUF_SIZE).
    { unfold fits in Fit. assert (Z.of_nat (length (skipn 4 (self_buf c))) + Z.of_nat (length r) <= Z.of_nat (length p)).
      { destruct Cs as [(_&_&->)|(_&q&m&_&_&->)]; rewrite !app_length; lia. }
      rewrite skipn_length in H. unfold MAX_ALLOC_BUF_SIZE in *. lia. }
    destruct (Z.leb_spec (Z.of_nat (length (self_buf c)) + want) MAX_ALLOC_BUF_SIZE); [|lia]. cbn [negb].
    destruct (sys_read (Z.to_nat want) s) as [[got|] s'] eqn:E.
    + assert (Wp : (0 < Z.to_nat want)%nat) by lia. destruct (sys_read_ok _ _ _ _ Wp E) as (E1&L1&L2&L3).
      assert (Hg : got ++ concat s' = r ++ tail) by (rewrite <- E1; exact Es).
      destruct (app_split_len got (concat s') r tail Hg ltac:(lia)) as (e&Ee&Et).
      cbv zeta. destruct (Z.ltb_spec (Z.of_nat (length got)) want) as [Sh|Sh].
      * exists {| self_buf := self_buf c ++ got; header := header c; packet_read_len := packet_read_len c + Z.of_nat (length got);
          current_packet_len := current_packet_len c; packet_len := packet_len c; packet_seq := packet_seq c; has_multi_packet := has_multi_packet c |}, s'.
        split; [exact L2|]. split; [rewrite E1, app_length; lia|]. left. split; [reflexivity|]. cbn [packet_read_len]. split; [|lia].
        assert (Sk : skipn 4 (self_buf c ++ got) = skipn 4 (self_buf c) ++ got).
        { rewrite skipn_app. replace (4 - length (self_buf c))%nat with 0%nat by lia. reflexivity. }
        unfold waiting. split; [|split; [rewrite E1, app_length; lia|split; [lia|intros _; apply L3; lia]]].
        right. unfold at_body. cbn [self_buf header packet_read_len current_packet_len packet_len has_multi_packet]. rewrite Sk.
        split; [|unfold want in *; lia]. split; [exact H4|]. split; [rewrite app_length; lia|]. split; [exact Hm|].
        exists e, tail. split; [exact Et|]. rewrite Ee, app_length in Lr. split; [unfold want in *; lia|]. 
        rewrite Ee, !app_length in Hp. rewrite app_length. split; [lia|]. rewrite Ee in Cs.
        destruct Cs as [(C1&C2&C3)|(C1&q&m&C2&C3&C4)]; [left|right].
        -- split; [exact C1|]. split; [exact C2|]. rewrite C3, <- app_assoc. reflexivity.
        -- split; [exact C1|]. exists q, m. split; [exact C2|]. split; [exact C3|]. rewrite C4, <- !app_assoc. reflexivity.
      * assert (e = []) as -> by (destruct e; [reflexivity|]; apply (f_equal (@length Z)) in Ee; rewrite app_length in Ee; cbn [length] in Ee; lia).
        rewrite app_nil_r in Ee. cbn [app] in Et.
        exists {| self_buf := self_buf c ++ got; header := []; packet_read_len := 0;
          current_packet_len := current_packet_len c; packet_len := packet_len c; packet_seq := packet_seq c; has_multi_packet := has_multi_packet c |}, s'.
        split; [exact L2|]. split; [rewrite E1, app_length; lia|]. right.
        assert (Sk : skipn 4 (self_buf c ++ got) = skipn 4 (self_buf c) ++ r).
        { rewrite skipn_app, Ee. replace (4 - length (self_buf c))%nat with 0%nat by lia. reflexivity. }
        destruct (Done (self_buf c ++ got) s' Sk ltac:(rewrite app_length; lia) Et) as [[D1 D2]|[D1 D2]]; [left|right]; (split; [reflexivity|]; split; assumption).
    + destruct (sys_read_none _ _ _ E) as (E1&L1). exists c, s'.
      assert (L2 : (length s' <= length s)%nat).
      { destruct s as [|x s0]; [cbn in E; injection E as <-; lia|]. specialize (L1 ltac:(discriminate)). lia. }
      split; [exact L2|]. split; [rewrite E1; lia|]. left. split; [reflexivity|]. split; [|exact Hr0].
      unfold waiting. split; [|rewrite E1; auto]. right. rewrite <- E1. split; [|unfold want in G; lia].
      split; [exact H4|]. split; [exact Hs|]. split; [exact Hm|]. exists r, tail. auto.
Qed.

Lemma waiting_trans c s s1 s0 p rest : waiting c s s1 p rest -> (length s1 <= length s0)%nat -> (length (concat s1) <= length (concat s0))%nat ->
  (s1 = [] -> s0 <> [] -> (length s1 < length s0)%nat) -> waiting c s s0 p rest.
Proof.
  intros (W&L1&L2&L3) L4 L5 L6. split; [exact W|]. split; [lia|]. split; [lia|]. intros N. destruct s1 as [|x s1]; [specialize (L6 eq_refl N); lia|].
  specialize (L3 ltac:(discriminate)). lia.
Qed.

Lemma read_packet_head fuel : forall c s p rest, fits p -> at_head c (concat s) p rest -> (length (concat s) < fuel)%nat ->
  exists c' s', read_packet fuel c s = (RET_WAIT_FOR_EVENT, c', s') /\ waiting c' s' s p rest /\ 0 <= packet_read_len c' \/
    read_packet fuel c s = (RET_SUCCESS, c', s') /\ complete c' (concat s') p rest.
Proof.
  induction fuel as [|f IH]; intros c s p rest Fit A L; [lia|]. cbn [read_packet].
  pose proof A as (H4&_). destruct (Nat.eqb_spec (length (header c)) 4); [lia|].
  destruct (header_step c s p rest Fit A) as (c1&s1&Ls&[(E&W)|(E&B&R&C&Lc)]); rewrite E.
  { exists c1, s1. left. split; [reflexivity|]. split; [exact W|]. destruct W as [[Wh|[Wb _]] _].
    - destruct Wh as (_&R0&_). lia.
    - unfold read_packet_header in E. exfalso. destruct Wb as (H4'&_).
      destruct (negb _); [discriminate|]. destruct (sys_read _ s) as [[got|] s2] eqn:Er.
      + destruct (Nat.ltb_spec (length got) (PACKET_HEADER_LEN - length (header c))) as [G|G]; [|discriminate]. injection E as E _. subst c1. cbn [header] in H4'.
        rewrite app_length in H4'. unfold PACKET_HEADER_LEN in G. lia.
      + injection E as E _. subst c1. lia. }
  destruct (body_step c1 s1 p rest Fit B ltac:(lia)) as (c2&s2&Ls2&Lc2&[(E2&W&R2)|[(E2&M&D)|(E2&M&A2)]]); rewrite E2.
  - exists c2, s2. left. split; [reflexivity|]. split; [|exact R2]. apply waiting_trans with (s1 := s1); [exact W|lia|lia|].
    intros -> N. destruct s; [congruence|cbn; lia].
  - rewrite M. exists c2, s2. right. split; [reflexivity|exact D].
  - rewrite M. destruct (IH c2 s2 p rest Fit A2 ltac:(lia)) as (c3&s3&[(E3&W&R3)|(E3&D)]); exists c3, s3; rewrite E3; [left|right].
    + split; [reflexivity|]. split; [|exact R3]. apply waiting_trans with (s1 := s2); [exact W|lia|lia|]. intros -> N. destruct s; [congruence|cbn; lia].
    + split; [reflexivity|exact D].
Qed.

Definition in_request (c : conn) (s : socket) (p rest : list Z) : Prop :=
  0 <= packet_read_len c /\
  (at_head c (concat s) p rest \/ at_body c (concat s) p rest /\ packet_read_len c < current_packet_len c).

Lemma read_packet_ok c s p rest : fits p -> in_request c s p rest ->
  exists c' s', read_packet (S (S (length (concat s)))) c s = (RET_WAIT_FOR_EVENT, c', s') /\ in_request c' s' p rest /\ (s <> [] -> (length s' < length s)%nat) \/
    read_packet (S (S (length (concat s)))) c s = (RET_SUCCESS, c', s') /\ complete c' (concat s') p rest.
Proof.
  intros Fit (R&[A|[B _]]).
  - destruct (read_packet_head (S (S (length (concat s)))) c s p rest Fit A ltac:(lia)) as (c'&s'&[(E&(W1&_&_&W2)&R')|(E&D)]); exists c', s'; [left|right].
    + split; [exact E|]. split; [split; assumption|exact W2].
    + split; assumption.
  - remember (S (length (concat s))) as g eqn:Eg. cbn [read_packet]. pose proof B as (H4&_). rewrite H4. cbn [Nat.eqb].
    destruct (body_step c s p rest Fit B R) as (c2&s2&Ls2&Lc2&[(E2&W&R2)|[(E2&M&D)|(E2&M&A2)]]); rewrite E2.
    + exists c2, s2. left. split; [reflexivity|]. destruct W as (W1&_&_&W2). split; [split; assumption|exact W2].
    + rewrite M. exists c2, s2. right. split; [reflexivity|exact D].
    + rewrite M. destruct (read_packet_head g c2 s2 p rest Fit A2 ltac:(lia)) as (c3&s3&[(E3&W&R3)|(E3&D)]); exists c3, s3; rewrite E3; [left|right].
      * split; [reflexivity|]. destruct W as (W1&_&W3&W2). split; [split; assumption|]. intros N. destruct s2 as [|x s2].
        -- destruct s; [congruence|]. cbn [length] in *. lia.
        -- specialize (W2 ltac:(discriminate)). lia.
      * split; [reflexivity|exact D].
Qed.

Lemma in_request_more c s p rest : in_request c s p rest -> s <> [].
Proof.
  intros (_&[(H4&_&_&_&q&m&Hq&Hm&_)|[(_&_&_&r&tail&Es&Lr&_) L]]) ->; cbn [concat] in *.
  - destruct (send_head q m rest Hq) as (n&sq&body&tail&E&_). rewrite app_nil_r in Hm. rewrite Hm, E in H4. rewrite !app_length, le_bytes_length in H4. cbn [length] in H4. lia.
  - destruct r; [cbn [length] in Lr; lia|discriminate].
Qed.

Lemma read_request_ok fuel : forall c s p rest, fits p -> in_request c s p rest -> (length s < fuel)%nat ->
  exists c' s', read_request fuel c s = (RET_SUCCESS, c', s') /\ complete c' (concat s') p rest.
Proof.
  induction fuel as [|f IH]; intros c s p rest Fit I0 L; [lia|]. cbn [read_request].
  destruct (read_packet_ok c s p rest Fit I0) as (c'&s'&[(E&I1&N)|(E&D)]); rewrite E.
  - pose proof (in_request_more _ _ _ _ I1) as N1. specialize (N (in_request_more _ _ _ _ I0)).
    destruct s' as [|x s']; [congruence|]. apply IH; [exact Fit|exact I1|lia].
  - exists c', s'. split; [reflexivity|exact D].
Qed.

Lemma request_from_start s p rest : fits p -> concat s = send_message p ++ rest ->
  exists c' s', read_request (S (length s)) conn_init s = (RET_SUCCESS, c', s') /\ complete c' (concat s') p rest.
Proof.
  intros Fit E. apply read_request_ok; [exact Fit| |lia]. split; [cbn; lia|]. left.
  split; [cbn; lia|]. split; [reflexivity|]. split; [left; reflexivity|]. split; [reflexivity|].
  exists p, (send_message p). split; [exists (S (length p)), 0; split; [lia|reflexivity]|]. split; [cbn [header conn_init app]; exact E|reflexivity].
Qed.
