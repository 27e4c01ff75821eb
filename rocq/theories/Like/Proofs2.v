(* Well-formed strings; index ranges derived from LIKE. *)
From Verif.Common Require Import Bytes.
From Verif.Like Require Import Model Spec Proofs.
Local Open Scope Z_scope.


(* ---- bits of a byte ---- *)
Definition byte_row (b : Z) : bool :=
  Bool.eqb (Z.land b 0x80 =? 0) (b <? 128) &&
  Bool.eqb (Z.land b 0xE0 =? 0xC0) ((192 <=? b) && (b <? 224)) &&
  Bool.eqb (Z.land b 0xF0 =? 0xE0) ((224 <=? b) && (b <? 240)) &&
  Bool.eqb (Z.land b 0xF0 =? 0xF0) (240 <=? b) &&
  Bool.eqb (Z.land b 0xC0 =? 0x80) ((128 <=? b) && (b <? 192)).
Lemma byte_rows : forallb byte_row (map Z.of_nat (seq 0 256)) = true.
Proof. vm_compute. reflexivity. Qed.
Lemma byte_row_at b : 0 <= b < 256 -> byte_row b = true.
Proof.
  intros H. pose proof byte_rows as T. rewrite forallb_forall in T. apply T.
  replace b with (Z.of_nat (Z.to_nat b)) by lia. apply in_map. apply in_seq. lia.
Qed.
Lemma byte_bits b : 0 <= b < 256 ->
  (Z.land b 0x80 =? 0) = (b <? 128) /\
  (Z.land b 0xE0 =? 0xC0) = ((192 <=? b) && (b <? 224)) /\
  (Z.land b 0xF0 =? 0xE0) = ((224 <=? b) && (b <? 240)) /\
  (Z.land b 0xF0 =? 0xF0) = (240 <=? b) /\
  (Z.land b 0xC0 =? 0x80) = ((128 <=? b) && (b <? 192)).
Proof.
  intros H. pose proof (byte_row_at b H) as T. unfold byte_row in T.
  apply andb_true_iff in T as [T T5]. apply andb_true_iff in T as [T T4]. apply andb_true_iff in T as [T T3]. apply andb_true_iff in T as [T1 T2].
  apply eqb_prop in T1, T2, T3, T4, T5. auto.
Qed.

Lemma cont_run_valid r : Forall utf8_char r -> cont_run (concat r) = O.
Proof.
  intros F. destruct F as [|c r Hc _]; [reflexivity|].
  assert (K : exists a x, c = a :: x /\ 0 <= a < 256 /\ ~ (128 <= a < 192)).
  { destruct Hc; do 2 eexists; (split; [reflexivity|]); lia. }
  destruct K as (a & x & -> & Ha & Hn). cbn [concat app cont_run].
  destruct (byte_bits a Ha) as (_ & _ & _ & _ & E). rewrite E.
  destruct ((128 <=? a) && (a <? 192)) eqn:Q; [lia|reflexivity].
Qed.
Lemma cont_true b : cont b -> (Z.land b 0xC0 =? 0x80) = true.
Proof. unfold cont. intros H. destruct (byte_bits b ltac:(lia)) as (_ & _ & _ & _ & E). rewrite E. lia. Qed.

Lemma next_valid cs c r : Forall (char_of cs) (c :: r) -> next_code_point cs (concat (c :: r)) = c.
Proof.
  intros F. inversion F as [|? ? Hc Hr]; subst. destruct cs; cbn [char_of next_code_point concat] in *.
  - destruct Hc as [b ->]. reflexivity.
  - pose proof (cont_run_valid r Hr) as C0. unfold utf8_next, char_size.
    destruct Hc; cbn [app tl cont_run]; destruct (byte_bits a ltac:(lia)) as (E1 & E2 & E3 & E4 & _); rewrite E1, ?E2, ?E3, ?E4.
    + replace (a <? 128) with true by lia. reflexivity.
    + replace (a <? 128) with false by lia. replace ((192 <=? a) && (a <? 224)) with true by lia.
      rewrite cont_true by auto. rewrite C0. reflexivity.
    + replace (a <? 128) with false by lia. replace ((192 <=? a) && (a <? 224)) with false by lia.
      replace ((224 <=? a) && (a <? 240)) with true by lia.
      rewrite !cont_true by auto. rewrite C0. reflexivity.
    + replace (a <? 128) with false by lia. replace ((192 <=? a) && (a <? 224)) with false by lia.
      replace ((224 <=? a) && (a <? 240)) with false by lia. replace (240 <=? a) with true by lia.
      rewrite !cont_true by auto. rewrite C0. reflexivity.
  - unfold gbk_next. destruct Hc; cbn [app]; destruct (byte_bits a ltac:(lia)) as (E1 & _); rewrite E1.
    + replace (a <? 128) with true by lia. reflexivity.
    + replace (a <? 128) with false by lia. unfold in_range.
      replace ((129 <=? a) && (a <=? 254) && ((64 <=? b) && (b <=? 126) || (128 <=? b) && (b <=? 254))) with true by lia. reflexivity.
Qed.
Lemma char_nonempty cs c : char_of cs c -> c <> [].
Proof. destruct cs; cbn; [intros [b ->]; discriminate|intros []; discriminate|intros []; discriminate]. Qed.
Lemma skip_valid (c : list Z) r : skipn (length c) (concat (c :: r)) = concat r.
Proof. cbn [concat]. rewrite skipn_app, skipn_all, Nat.sub_diag. reflexivity. Qed.
Lemma units_valid cs tc : Forall (char_of cs) tc -> units cs (concat tc) = tc.
Proof.
  induction tc as [|c r IH]; intros F; [reflexivity|]. pose proof (next_valid cs c r F) as E.
  inversion F as [|? ? Hc Hr]; subst.
  rewrite units_next by (rewrite E; apply (char_nonempty cs c Hc)). rewrite E, skip_valid, IH; auto.
Qed.

(* ---- no boost::none on well-formed strings ---- *)
Definition wf cs s := exists sc, Forall (char_of cs) sc /\ s = concat sc.
Definition wf_resume cs (r : option (list Z * list Z)) :=
  match r with Some (a, b) => wf cs a /\ wf cs b | None => True end.
Lemma wf_next cs s : wf cs s -> s <> [] -> exists c r, next_code_point cs s = c /\ c <> [] /\ char_of cs c /\
  s = c ++ concat r /\ Forall (char_of cs) r.
Proof.
  intros (sc & F & ->) H. destruct sc as [|c r]; [cbn in H; congruence|]. pose proof (next_valid cs c r F).
  inversion F as [|? ? Hc Hr]; subst. exists c, r. split; [auto|]. split; [apply (char_nonempty cs c Hc)|]. auto.
Qed.
Lemma wf_skip cs s : wf cs s -> s <> [] -> wf cs (skipn (length (next_code_point cs s)) s).
Proof.
  intros H H0. destruct (wf_next cs s H H0) as (c & r & E & _ & _ & -> & F). rewrite E.
  change (c ++ concat r) with (concat (c :: r)). rewrite skip_valid. exists r; auto.
Qed.
Lemma wf_off cs s : wf cs s -> s <> [] -> wf cs (skipn (offset cs s) s).
Proof.
  intros H H0. destruct (wf_next cs s H H0) as (c & r & E & N & _). rewrite offset_next by congruence. apply wf_skip; auto.
Qed.
Lemma give_up_wf cs r t p r' : wf_resume cs r -> give_up r = TGo t p r' -> wf cs t /\ wf cs p /\ wf_resume cs r'.
Proof. destruct r as [[a b]|]; cbn; [intros [A B] [= -> -> <-]; cbn; auto|discriminate]. Qed.
Lemma give_up_not_none r : give_up r <> TNone.
Proof. destruct r as [[a b]|]; discriminate. Qed.

Lemma turn_wf cs t p r : wf cs t -> wf cs p -> wf_resume cs r ->
  like_turn cs t p r <> TNone /\
  forall t' p' r', like_turn cs t p r = TGo t' p' r' -> wf cs t' /\ wf cs p' /\ wf_resume cs r'.
Proof.
  intros Ht Hp Hr. destruct p as [|b0 p0] eqn:EP.
  { destruct t as [|x t]; cbn [like_turn]; split; try discriminate; try apply give_up_not_none; intros t' p' r' E.
    eapply give_up_wf; eauto. }
  rewrite <- EP in *. assert (P0 : p <> []) by (subst; discriminate).
  destruct (wf_next cs p Hp P0) as (pc & pr & E & N & Hc & Es & Fr).
  assert (EQ : like_turn cs t p r = 
     (let pp := next_code_point cs p in
      if beq pp [] then TNone
      else if beq pp under_score then
        match t with [] => give_up r | _ => TGo (skipn (offset cs t) t) (skipn 1 p) r end
      else if beq pp percent then TGo t (skipn 1 p) (match t with [] => None | _ => Some (skipn (offset cs t) t, p) end)
      else
        let p' := if beq pp escape && (1 <? length p)%nat then skipn 1 p else p in
        let pp' := next_code_point cs p' in
        if beq pp' [] then TNone
        else match t with
             | [] => give_up r
             | _ =>
                 let tp := next_code_point cs t in
                 if beq tp [] then TNone
                 else if beq pp' tp then TGo (skipn (length tp) t) (skipn (length pp') p') r
                 else give_up r
             end)) by (rewrite EP; destruct t; reflexivity).
  rewrite EQ. clear EQ. cbv zeta.
  assert (W1 : forall b, next_code_point cs p = [b] -> wf cs (skipn 1 p)).
  { intros b Eb. pose proof (wf_skip cs p Hp P0) as W. rewrite Eb in W. exact W. }
  destruct (beq_spec (next_code_point cs p) []) as [E0|E0]; [congruence|].
  destruct (beq_spec (next_code_point cs p) under_score) as [E1|E1].
  { destruct t as [|x t]; [split; [apply give_up_not_none|intros; eapply give_up_wf; eauto]|].
    split; [discriminate|]. intros t' p' r' [= <- <- <-]. split; [apply wf_off; auto; discriminate|]. split; [eapply W1; eauto|auto]. }
  destruct (beq_spec (next_code_point cs p) percent) as [E2|E2].
  { split; [discriminate|]. intros t' p' r' [= <- <- <-]. split; [auto|]. split; [eapply W1; eauto|].
    destruct t; cbn; [auto|]. split; [apply wf_off; auto; discriminate|auto]. }
  set (q := if beq (next_code_point cs p) escape && (1 <? length p)%nat then skipn 1 p else p).
  assert (Wq : wf cs q /\ q <> []).
  { unfold q. destruct (beq_spec (next_code_point cs p) escape) as [E3|E3]; [|auto].
    destruct (Nat.ltb_spec 1 (length p)) as [L|L]; cbn [andb]; [|auto]. split; [eapply W1; eauto|].
    intros Q. pose proof (skipn_length 1 p) as SL. rewrite Q in SL. cbn [length] in SL. lia. }
  destruct Wq as [Wq Q0]. destruct (wf_next cs q Wq Q0) as (qc & qr & Eq & Nq & _). 
  destruct (beq_spec (next_code_point cs q) []) as [E4|E4]; [congruence|].
  destruct t as [|x t]; [split; [apply give_up_not_none|intros; eapply give_up_wf; eauto]|].
  destruct (wf_next cs (x :: t) Ht ltac:(discriminate)) as (tc & tr & Et & Nt & _).
  destruct (beq_spec (next_code_point cs (x :: t)) []) as [E5|E5]; [congruence|].
  destruct (beq_spec (next_code_point cs q) (next_code_point cs (x :: t))) as [E6|E6].
  - split; [discriminate|]. intros t' p' r' [= <- <- <-]. split; [apply (wf_skip cs (x :: t)); auto; discriminate|].
    split; [apply wf_skip; auto|auto].
  - split; [apply give_up_not_none|intros; eapply give_up_wf; eauto].
Qed.
Lemma loop_not_none cs : forall n t p r, wf cs t -> wf cs p -> wf_resume cs r -> like_loop n cs t p r <> ANone.
Proof.
  induction n as [|n IH]; intros t p r Ht Hp Hr; cbn [like_loop]; [discriminate|].
  destruct (turn_wf cs t p r Ht Hp Hr) as [A B]. destruct (like_turn cs t p r) as [|b|t' p' r'] eqn:E; [congruence|discriminate|].
  destruct (B _ _ _ eq_refl) as (X & Y & Z0). apply IH; auto.
Qed.
Lemma like_one_wf cs tc pc : Forall (char_of cs) tc -> Forall (char_of cs) pc ->
  (like_one cs (concat tc) (concat pc) = true <-> matches (items pc) tc).
Proof.
  intros Ft Fp. pose proof (like_ok cs (concat tc) (concat pc)) as [NF K].
  rewrite !units_valid in K by auto.
  assert (NN : like cs (concat tc) (concat pc) <> ANone).
  { apply loop_not_none; [exists tc; auto|exists pc; auto|exact I]. }
  unfold like_one. destruct (like cs (concat tc) (concat pc)) as [|b|]; try congruence. apply K. reflexivity.
Qed.
Lemma bytes_of_char s : Forall (char_of CBinary) (bytes_of s) /\ concat (bytes_of s) = s.
Proof.
  split; [apply Forall_map, Forall_forall; intros; cbn; eauto|]. induction s as [|b s IH]; [reflexivity|]. unfold bytes_of in *. cbn [map concat app]. f_equal. exact IH.
Qed.
Lemma like_one_bytes t p : like_one CBinary t p = true <-> matches (items (bytes_of p)) (bytes_of t).
Proof.
  destruct (bytes_of_char t) as [A B], (bytes_of_char p) as [C D]. rewrite <- B at 1. rewrite <- D at 1. apply like_one_wf; auto.
Qed.
Lemma like_terminates cs t p : like cs t p <> AFuel.
Proof. apply like_ok. Qed.
(* whatever the strings, a TRUE comes from a match of the character or of the byte reading *)
Lemma like_one_either cs t p : like_one cs t p = true ->
  matches (items (units cs p)) (units cs t) \/ matches (items (bytes_of p)) (bytes_of t).
Proof.
  unfold like_one. pose proof (like_ok cs t p) as [_ K]. pose proof (like_one_bytes t p) as B. unfold like_one in B.
  destruct (like cs t p) as [|b|] eqn:E; intros H; [right|left; apply (K b); auto|right]; apply B; destruct (like CBinary t p); auto.
Qed.

(* ---- hit_index ---- *)
(* characters that hit_index, which works byte by byte, reads as one literal *)
Definition okc (c : list Z) : Prop := (exists b, c = [b]) \/ (hd 0 c <> 95 /\ c <> [] /\ ~ In 92 c /\ ~ In 37 c).

Lemma hit_run c : ~ In 92 c -> ~ In 37 c -> forall rest,
  (exists c1 c2, c = c1 ++ 95 :: c2 /\ hit_loop (c ++ rest) false = (false, c1)) \/
  (hit_loop (c ++ rest) false = (fst (hit_loop rest false), c ++ snd (hit_loop rest false)) /\ ~ In 95 c).
Proof.
  induction c as [|x c IH]; intros A B rest.
  - right. cbn. destruct (hit_loop rest false); auto.
  - cbn [In] in A, B. cbn [app hit_loop negb andb].
    destruct (Z.eqb_spec x 37); [tauto|]. destruct (Z.eqb_spec x 95) as [->|].
    + left. exists [], c. auto.
    + destruct (Z.eqb_spec x 92); [tauto|]. destruct (IH ltac:(tauto) ltac:(tauto) rest) as [(c1 & c2 & -> & E)|[E N]].
      * left. exists (x :: c1), c2. rewrite E. auto.
      * right. rewrite E. cbn. split; [reflexivity|]. intros [|]; congruence.
Qed.
Lemma lone_other x r : x <> 92 -> lone_escape (x :: r) = lone_escape r.
Proof.
  intros H. cbn [lone_escape]. destruct x as [|p|p]; try reflexivity; repeat (destruct p as [p|p|]; try reflexivity). congruence.
Qed.
Lemma lone_run c rest : ~ In 92 c -> lone_escape (c ++ rest) = lone_escape rest.
Proof. induction c as [|x c IH]; cbn [In app]; intros H; [reflexivity|]. rewrite lone_other by tauto. apply IH. tauto. Qed.
Lemma hit_esc b r : hit_loop (92 :: b :: r) false = let '(e, s) := hit_loop r false in (e, b :: s).
Proof. reflexivity. Qed.
Lemma lone_esc x r : lone_escape (92 :: x :: r) = lone_escape r.
Proof. reflexivity. Qed.

Lemma starts_nil t : starts_with [] t.
Proof. exists t. reflexivity. Qed.
Lemma starts_app c s t : starts_with s t -> starts_with (c ++ s) (c ++ t).
Proof. intros [r ->]. exists r. apply app_assoc. Qed.
Lemma starts_pre c1 c2 t : starts_with c1 ((c1 ++ c2) ++ t).
Proof. exists (c2 ++ t). rewrite app_assoc. reflexivity. Qed.

(* the literal prefix of the pattern, character by character *)
Lemma hit_ok : forall n pc, (length pc <= n)%nat -> Forall okc pc -> forall us, matches (items pc) us ->
  starts_with (snd (hit_loop (concat pc) false)) (concat us) /\
  (fst (hit_loop (concat pc) false) = true -> lone_escape (concat pc) = false ->
   concat us = snd (hit_loop (concat pc) false)).
Proof.
  induction n as [|n IH]; intros pc Hn F us M.
  { destruct pc; [|cbn in Hn; lia]. cbn in M. inversion M. cbn. split; [apply starts_nil|auto]. }
  destruct pc as [|c r]; [cbn in M; inversion M; cbn; split; [apply starts_nil|auto]|].
  inversion F as [|? ? Hc Fr]; subst. cbn [length] in Hn.
  assert (LIT : forall d r', (length r' <= n)%nat -> Forall okc r' -> d <> [] -> ~ In 92 d -> ~ In 37 d -> matches (Lit d :: items r') us ->
     starts_with (snd (hit_loop (d ++ concat r') false)) (concat us) /\
     (fst (hit_loop (d ++ concat r') false) = true -> lone_escape (d ++ concat r') = false ->
      concat us = snd (hit_loop (d ++ concat r') false))).
  { intros d r' L Fr' Nd A B M'. apply match_lit in M' as (x & -> & M'). cbn [concat].
    destruct (hit_run d A B (concat r')) as [(c1 & c2 & -> & E)|[E N95]]; rewrite E; cbn [fst snd].
    - split; [apply starts_pre|discriminate].
    - destruct (IH r' L Fr' x M') as [S1 S2]. rewrite lone_run by auto. split; [apply starts_app; auto|].
      intros e l. rewrite S2 by auto. reflexivity. }
  destruct (list_eq_dec Z.eq_dec c [37]) as [->|N1].
  { cbn. split; [apply starts_nil|discriminate]. }
  destruct (list_eq_dec Z.eq_dec c [95]) as [->|N2].
  { cbn. split; [apply starts_nil|discriminate]. }
  destruct (list_eq_dec Z.eq_dec c [92]) as [->|N3].
  - destruct r as [|d r].
    + cbn. split; [apply starts_nil|discriminate].
    + inversion Fr as [|? ? Hd Fr']; subst. cbn [items] in M. cbn [concat app]. cbn [length] in Hn.
      apply match_lit in M as (x & -> & M). cbn [concat].
      destruct Hd as [[b ->]|(D1 & D2 & D3 & D4)].
      * cbn [app]. rewrite hit_esc. destruct (IH r ltac:(lia) Fr' x M) as [S1 S2].
        rewrite lone_esc. destruct (hit_loop (concat r) false) as [e s] eqn:E. cbn [fst snd] in *.
        split; [apply (starts_app [b]); auto|]. intros He Hl. rewrite S2 by auto. reflexivity.
      * destruct d as [|b d]; [congruence|]. cbn [In] in D3, D4. cbn [app]. rewrite hit_esc.
        rewrite lone_esc. destruct (IH r ltac:(lia) Fr' x M) as [S1 S2].
        destruct (hit_run d ltac:(tauto) ltac:(tauto) (concat r)) as [(c1 & c2 & -> & E)|[E N95]]; rewrite E; cbn [fst snd].
        { split; [apply (starts_pre (b :: c1) (95 :: c2))|discriminate]. }
        rewrite lone_run by tauto. split; [apply (starts_app (b :: d)); auto|].
        intros He Hl. rewrite S2 by auto. reflexivity.
  - rewrite items_other in M by auto. cbn [concat]. apply LIT; auto; try lia.
    + destruct Hc as [[b ->]|(D1 & D2 & D3 & D4)]; [discriminate|auto].
    + destruct Hc as [[b ->]|(D1 & D2 & D3 & D4)]; [|auto]. cbn. intros [->|[]]. congruence.
    + destruct Hc as [[b ->]|(D1 & D2 & D3 & D4)]; [|auto]. cbn. intros [->|[]]. congruence.
Qed.

(* a pattern read as an equality is matched by that text *)
Lemma hit_eq_match cs : forall n pc, (length pc <= n)%nat -> Forall okc pc -> Forall (char_of cs) pc ->
  fst (hit_loop (concat pc) false) = true -> lone_escape (concat pc) = false ->
  exists us, Forall (char_of cs) us /\ matches (items pc) us /\ concat us = snd (hit_loop (concat pc) false).
Proof.
  induction n as [|n IH]; intros pc Hn F V He Hl.
  { destruct pc; [|cbn in Hn; lia]. exists []. cbn. split; [constructor|]. split; [constructor|auto]. }
  destruct pc as [|c r]; [exists []; cbn; split; [constructor|]; split; [constructor|auto]|].
  inversion F as [|? ? Hc Fr]; subst. inversion V as [|? ? Vc Vr]; subst. cbn [length] in Hn.
  assert (LIT : forall d r', (length r' <= n)%nat -> Forall okc r' -> Forall (char_of cs) r' -> char_of cs d -> ~ In 92 d -> ~ In 37 d ->
     fst (hit_loop (d ++ concat r') false) = true -> lone_escape (d ++ concat r') = false ->
     exists us, Forall (char_of cs) us /\ matches (Lit d :: items r') us /\ concat us = snd (hit_loop (d ++ concat r') false)).
  { intros d r' L Fr' Vr' Vd A B He' Hl'.
    destruct (hit_run d A B (concat r')) as [(c1 & c2 & -> & E)|[E N95]]; rewrite E in *; cbn [fst snd] in *; [discriminate|].
    rewrite lone_run in Hl' by auto. destruct (IH r' L Fr' Vr' He' Hl') as (us & U1 & U2 & U3).
    exists (d :: us). split; [constructor; auto|]. split; [constructor; auto|]. cbn [concat]. rewrite U3. reflexivity. }
  destruct (list_eq_dec Z.eq_dec c [37]) as [->|N1]; [cbn in He; discriminate|].
  destruct (list_eq_dec Z.eq_dec c [95]) as [->|N2]; [cbn in He; discriminate|].
  destruct (list_eq_dec Z.eq_dec c [92]) as [->|N3].
  - destruct r as [|d r]; [cbn in Hl; discriminate|].
    inversion Fr as [|? ? Hd Fr']; subst. inversion Vr as [|? ? Vd Vr']; subst. cbn [items]. cbn [concat app] in *. cbn [length] in Hn.
    destruct Hd as [[b ->]|(D1 & D2 & D3 & D4)].
    + cbn [app] in *. rewrite hit_esc in *.
      rewrite lone_esc in Hl. destruct (IH r ltac:(lia) Fr' Vr') as (us & U1 & U2 & U3); auto.
      { destruct (hit_loop (concat r) false); auto. }
      exists ([b] :: us). split; [constructor; auto|]. split; [constructor; auto|]. cbn [concat app].
      destruct (hit_loop (concat r) false); cbn [snd] in *. congruence.
    + destruct d as [|b d]; [congruence|]. cbn [In] in D3, D4. cbn [app] in *. rewrite hit_esc in *.
      rewrite lone_esc in Hl.
      destruct (hit_run d ltac:(tauto) ltac:(tauto) (concat r)) as [(c1 & c2 & -> & E)|[E N95]]; rewrite E in *; cbn [fst snd] in *; [discriminate|].
      rewrite lone_run in Hl by tauto. destruct (IH r ltac:(lia) Fr' Vr' He Hl) as (us & U1 & U2 & U3).
      exists ((b :: d) :: us). split; [constructor; auto|]. split; [constructor; auto|]. cbn [concat app]. rewrite U3. reflexivity.
  - rewrite items_other by auto. cbn [concat] in *. apply LIT; auto; try lia.
    + destruct Hc as [[b ->]|(D1 & D2 & D3 & D4)]; [|auto]. cbn. intros [->|[]]. congruence.
    + destruct Hc as [[b ->]|(D1 & D2 & D3 & D4)]; [|auto]. cbn. intros [->|[]]. congruence.
Qed.

(* which readings are literal-safe *)
Lemma okc_bytes p : Forall okc (bytes_of p).
Proof. apply Forall_map, Forall_forall. intros b _. left. eauto. Qed.
Lemma cont_run_in r b k : In b (firstn k r) -> (k <= cont_run r)%nat -> Z.land b 0xC0 = 0x80.
Proof.
  revert k; induction r as [|x r IH]; intros [|k] H L; cbn in H; try tauto.
  cbn [cont_run] in L. destruct (Z.eqb_spec (Z.land x 0xC0) 0x80) as [E|E]; [|lia].
  destruct H as [->|H]; [auto|]. apply (IH k); auto. lia.
Qed.
Lemma utf8_next_okc s : s <> [] -> okc (firstn (offset CUtf8 s) s).
Proof.
  intros H. destruct (next_code_point CUtf8 s) as [|n0 nr] eqn:E.
  - unfold offset. rewrite E. destruct s; [congruence|]. left. cbn. eauto.
  - rewrite offset_next by congruence.
    assert (G : forall k, next_code_point CUtf8 s = firstn k s -> char_size s = k -> Z.land (hd 0 s) 0x80 <> 0 -> okc (firstn k s)).
    { intros k E1 E2 E3. right. destruct s as [|b s]; [congruence|]. unfold char_size in E2. cbn [tl] in E2. subst k. cbn [firstn hd] in *.
      assert (X : forall z, In z (b :: firstn (cont_run s) s) -> Z.land z 0x80 <> 0).
      { intros z [->|Hz]; [auto|]. pose proof (cont_run_in s z _ Hz (le_n _)) as C. intros Q.
        assert (Z.land (Z.land z 0xC0) 0x80 = 0) by (rewrite <- Z.land_assoc; change (Z.land 0xC0 0x80) with 0x80; auto). rewrite C in *. discriminate. }
      split; [intros ->; apply (X 95); [cbn; auto|reflexivity]|]. split; [discriminate|].
      split; intros Q; apply X in Q; apply Q; reflexivity. }
    cbn [next_code_point] in *. unfold utf8_next in *. destruct s as [|b s]; [congruence|]. cbn [hd] in G.
    destruct (Z.eqb_spec (Z.land b 0x80) 0) as [Z0|Z0]; [left; cbn; eauto|].
    destruct (_ =? 0xC0). { destruct (Nat.eqb_spec (char_size (b :: s)) 2); [|discriminate]. rewrite E in *.
      rewrite <- E. rewrite firstn_length_le; [apply G; auto; congruence|]. unfold char_size in *. cbn [tl length] in *. 
      assert (cont_run s <= length s)%nat by (clear; induction s as [|x s IH]; cbn; [lia|destruct (_ =? _); lia]). lia. }
    destruct (_ =? 0xE0). { destruct (Nat.eqb_spec (char_size (b :: s)) 3); [|discriminate]. rewrite E in *.
      rewrite <- E. rewrite firstn_length_le; [apply G; auto; congruence|]. unfold char_size in *. cbn [tl length] in *. 
      assert (cont_run s <= length s)%nat by (clear; induction s as [|x s IH]; cbn; [lia|destruct (_ =? _); lia]). lia. }
    destruct (_ =? 0xF0). { destruct (Nat.eqb_spec (char_size (b :: s)) 4); [|discriminate]. rewrite E in *.
      rewrite <- E. rewrite firstn_length_le; [apply G; auto; congruence|]. unfold char_size in *. cbn [tl length] in *. 
      assert (cont_run s <= length s)%nat by (clear; induction s as [|x s IH]; cbn; [lia|destruct (_ =? _); lia]). lia. }
    discriminate.
Qed.
Lemma units_Forall cs (P : list Z -> Prop) s : (forall s, s <> [] -> P (firstn (offset cs s) s)) -> Forall P (units cs s).
Proof.
  intros H. remember (length s) as n eqn:E. revert s E. induction n as [n IH] using lt_wf_ind. intros s E.
  destruct s as [|b s]; [constructor|]. rewrite units_cons by congruence. constructor; [apply H; congruence|].
  pose proof (offset_bound cs (b :: s) ltac:(congruence)).
  eapply IH; [|reflexivity]. rewrite skipn_length. subst n. cbn [length] in *. lia.
Qed.
Lemma okc_units cs p : cs <> CGbk -> Forall okc (units cs p).
Proof.
  intros H. apply units_Forall. intros s Hs. destruct cs; [|apply utf8_next_okc; auto|congruence].
  left. destruct s as [|b s]; [congruence|]. cbn. eauto.
Qed.
Lemma okc_gbk pc : Forall gbk_char pc -> (forall a, ~ In [a; 92] pc) -> Forall okc pc.
Proof.
  intros F H. rewrite Forall_forall in *. intros c Hc. destruct (F c Hc) as [a Ha|a b Ha Hb]; [left; eauto|].
  right. cbn. split; [lia|]. split; [discriminate|]. split; [|lia].
  intros [Q|[Q|[]]]; [lia|]. subst b. apply (H a); auto.
Qed.

Definition served_ok (p t : list Z) : Prop :=
  match index_for_like p with
  | IREqual s => lone_escape p = false -> t = s
  | IRPrefix s => starts_with s t
  | IRAll => True
  end.
Lemma served_from pc us : Forall okc pc -> matches (items pc) us -> served_ok (concat pc) (concat us).
Proof.
  intros F M. destruct (hit_ok (length pc) pc (le_n _) F us M) as [A B].
  unfold served_ok, index_for_like, hit_index. destruct (hit_loop (concat pc) false) as [e s]. cbn [fst snd] in *.
  destruct e; [auto|]. destruct (match concat pc with [] => _ | _ => _ end); auto.
Qed.
Lemma served cs t p : cs <> CGbk -> like_one cs t p = true -> served_ok p t.
Proof.
  intros H L. destruct (like_one_either cs t p L) as [M|M].
  - apply served_from in M; [|apply okc_units; auto]. rewrite !units_concat in M. auto.
  - apply served_from in M; [|apply okc_bytes]. rewrite !(proj2 (bytes_of_char _)) in M. auto.
Qed.
Lemma served_gbk t pc : Forall gbk_char pc -> (forall a, ~ In [a; 92] pc) -> like_one CGbk t (concat pc) = true -> served_ok (concat pc) t.
Proof.
  intros F H L. destruct (like_one_either CGbk t _ L) as [M|M].
  - rewrite (units_valid CGbk pc F) in M. apply served_from in M; [|apply okc_gbk; auto]. rewrite units_concat in M. auto.
  - apply served_from in M; [|apply okc_bytes]. rewrite !(proj2 (bytes_of_char _)) in M. auto.
Qed.
(* equality in both directions *)
Lemma served_eq cs pc s t : Forall (char_of cs) pc -> (cs = CGbk -> forall a, ~ In [a; 92] pc) ->
  index_for_like (concat pc) = IREqual s -> lone_escape (concat pc) = false ->
  (like_one cs t (concat pc) = true <-> t = s).
Proof.
  intros V G E L. split.
  - intros H. assert (S : served_ok (concat pc) t).
    { destruct cs; [apply (served CBinary); auto; discriminate|apply (served CUtf8); auto; discriminate|apply served_gbk; auto]. }
    unfold served_ok in S. rewrite E in S. auto.
  - intros ->. assert (F : Forall okc pc).
    { destruct cs; [| |apply okc_gbk; auto].
      - rewrite <- (units_valid CBinary pc V). apply okc_units. discriminate.
      - rewrite <- (units_valid CUtf8 pc V). apply okc_units. discriminate. }
    unfold index_for_like, hit_index in E. destruct (hit_loop (concat pc) false) as [e x] eqn:Q.
    destruct e; [|destruct (match concat pc with [] => _ | _ => _ end); discriminate]. injection E as <-.
    destruct (hit_eq_match cs (length pc) pc (le_n _) F V) as (us & U1 & U2 & U3); [rewrite Q; auto|auto|].
    rewrite Q in U3. cbn [snd] in U3. rewrite <- U3. apply like_one_wf; auto.
Qed.

(* ---- prefix ranges ---- *)
Lemma drop_ff_spec r : (drop_ff r = [] /\ Forall (eq 255) r) \/
  exists k c r', r = k ++ c :: r' /\ Forall (eq 255) k /\ c <> 255 /\ drop_ff r = (c + 1) :: r'.
Proof.
  induction r as [|c r IH]; cbn [drop_ff]; [left; auto|]. destruct (Z.eqb_spec c 255) as [->|N].
  - destruct IH as [[-> F]|(k & c & r' & -> & F & Nc & ->)]; [left; auto|]. right. exists (255 :: k), c, r'. auto.
  - right. exists [], c, r. auto.
Qed.
Lemma bcmp_app s a b : bcompare (s ++ a) (s ++ b) = bcompare a b.
Proof. induction s as [|x s IH]; cbn; [reflexivity|]. rewrite Z.compare_refl. auto. Qed.
Lemma prefix_range s t : ~ Forall (eq 255) s -> bytes_ok t -> bytes_ok s ->
  (starts_with s t <-> in_like_range s (end_val s) t = true).
Proof.
  intros N Ht Hs. unfold end_val.
  destruct (drop_ff_spec (rev s)) as [[_ F]|(k & c & r' & E & F & Nc & ->)].
  { exfalso. apply N. rewrite <- (rev_involutive s). apply Forall_rev. auto. }
  assert (Es : s = rev r' ++ c :: rev k) by (rewrite <- (rev_involutive s), E, rev_app_distr; cbn; rewrite <- app_assoc; reflexivity).
  assert (Fk : Forall (eq 255) (rev k)) by (apply Forall_rev; auto).
  change (rev (c + 1 :: r')) with (rev r' ++ [c + 1]).
  set (q := rev r') in *. set (m := rev k) in *. clearbody q m. subst s. clear E F N.
  assert (Hm : forall u, bytes_ok u -> (bcompare u m <> Lt -> starts_with m u)).
  { clear - Fk. induction Fk as [|x m E Fm IH]; intros u Hu H; [apply starts_nil|]. subst x.
    destruct u as [|y u]; [cbn in H; congruence|]. inversion Hu as [|? ? Hy Hu']; subst. unfold is_byte in Hy.
    cbn [bcompare] in H. destruct (Z.compare_spec y 255); [|congruence|lia]. subst y.
    apply (starts_app [255]). auto. }
  assert (Hm2 : forall u rest, u = m ++ rest -> bcompare u m <> Lt).
  { intros u rest ->. rewrite <- (app_nil_r m) at 2. rewrite bcmp_app. destruct rest; discriminate. }
  unfold in_like_range.
  clear Hs. revert t Ht. induction q as [|x q IH]; intros t Ht.
  - cbn [app]. destruct t as [|y t].
    + cbn. split; [intros [r Er]; discriminate|discriminate].
    + inversion Ht as [|? ? Hy Ht']; subst. cbn [bcompare]. destruct (Z.compare_spec y c) as [->|L|L].
      * replace (c ?= c + 1) with Lt by (symmetry; apply Z.compare_lt_iff; lia). split.
        -- intros [r Er]. injection Er as Er. pose proof (Hm2 t r Er). destruct (bcompare t m); congruence.
        -- intros H. apply (starts_app [c]). apply Hm; [exact Ht'|]. destruct (bcompare t m); congruence.
      * split; [intros [r Er]; injection Er as Er _; lia|discriminate].
      * split; [intros [r Er]; injection Er as Er _; lia|]. destruct (Z.compare_spec y (c + 1)); try lia; intros Q; try discriminate.
        destruct t; discriminate.
  - cbn [app]. destruct t as [|y t].
    + cbn. split; [intros [r Er]; discriminate|discriminate].
    + inversion Ht as [|? ? Hy Ht']; subst. cbn [bcompare]. destruct (Z.compare_spec y x) as [->|L|L].
      * rewrite <- IH by auto. split; [intros [r Er]; injection Er as Er; exists r; auto|]. intros [r Er]. exists r. cbn. congruence.
      * split; [intros [r Er]; injection Er as Er _; lia|discriminate].
      * split; [intros [r Er]; injection Er as Er _; lia|discriminate].
Qed.

(* a rewritten pattern without a backslash is a literal followed by % *)
Lemma hit_plain p : ~ In 92 p -> exists k,
  p = snd (hit_loop p false) ++ k /\ ~ In 37 (snd (hit_loop p false)) /\ ~ In 95 (snd (hit_loop p false)) /\
  (fst (hit_loop p false) = true -> k = []).
Proof.
  induction p as [|c p IH]; cbn [In hit_loop negb andb]; intros H; [exists []; cbn; auto|].
  destruct (Z.eqb_spec c 37); [exists (c :: p); cbn; intuition congruence|].
  destruct (Z.eqb_spec c 95); [exists (c :: p); cbn; intuition congruence|].
  destruct (Z.eqb_spec c 92); [tauto|]. destruct IH as (k & E & A & B & C); [tauto|].
  destruct (hit_loop p false) as [e s]. cbn [fst snd] in *. exists k. split; [cbn; congruence|]. cbn [In].
  split; [intros [|]; congruence|]. split; [intros [|]; congruence|auto].
Qed.
Lemma rewritten p lo hi : ~ In 92 p -> like_node_optimize p = RRange lo hi ->
  p = lo ++ [37] /\ hi = end_val lo /\ lo <> [] /\ ~ In 37 lo /\ ~ In 95 lo.
Proof.
  intros H R. unfold like_node_optimize, hit_index in R. destruct (hit_plain p H) as (k & E & A & B & C).
  destruct (hit_loop p false) as [e s]. cbn [fst snd] in *.
  destruct (negb _ || _) eqn:G; [discriminate|]. apply orb_false_iff in G as [G1 G2].
  destruct p as [|c p]; [discriminate|]. destruct (Z.eqb_spec (last (c :: p) 0) 37) as [L|L]; [|discriminate].
  injection R as <- <-. apply Nat.ltb_ge in G2. rewrite E in L, G2. rewrite app_length in G2.
  destruct k as [|x k].
  { exfalso. rewrite app_nil_r in *. subst s. apply A. rewrite <- L. rewrite (app_removelast_last (l := c :: p) 0) at 2 by discriminate.
    apply in_or_app. right. cbn. auto. }
  destruct k; [|cbn in G2; lia]. rewrite last_last in L. subst x. split; [auto|]. split; [auto|]. split; [|auto].
  intros ->. cbn in E. injection E as -> ->. cbn in G1. discriminate.
Qed.

Lemma match_lits pc us : matches (map Lit pc ++ [AnySeq]) us <-> exists r, us = pc ++ r.
Proof.
  revert us; induction pc as [|c pc IH]; intros us; cbn [map app].
  - rewrite match_seq. split; [eauto|]. intros [r ->]. exists r, []. rewrite app_nil_r. split; [auto|constructor].
  - rewrite match_lit. split.
    + intros (r & -> & M). apply IH in M as [r' ->]. exists r'. reflexivity.
    + intros [r ->]. exists (pc ++ r). split; [reflexivity|]. apply IH. eauto.
Qed.
Lemma items_plain pc : ~ In [37] pc -> ~ In [95] pc -> ~ In [92] pc -> items (pc ++ [[37]]) = map Lit pc ++ [AnySeq].
Proof.
  induction pc as [|c pc IH]; cbn [In app map]; intros A B C; [reflexivity|].
  rewrite items_other by tauto. rewrite IH by tauto. reflexivity.
Qed.
(* character boundaries: a well-formed text that starts with the bytes of a well-formed one
   starts with its characters *)
Lemma prefix_chars cs pc tc : Forall (char_of cs) pc -> Forall (char_of cs) tc -> starts_with (concat pc) (concat tc) ->
  exists r, tc = pc ++ r.
Proof.
  revert tc; induction pc as [|c pc IH]; intros tc Fp Ft S; [exists tc; auto|].
  inversion Fp as [|? ? Vc Vp]; subst. destruct S as [rest E]. destruct tc as [|d tc].
  { cbn in E. symmetry in E. apply app_eq_nil in E as [E _]. apply app_eq_nil in E as [E _]. apply char_nonempty in Vc. congruence. }
  inversion Ft as [|? ? Vd Vt]; subst.
  assert (CD : c = d).
  { clear IH. destruct cs; cbn [char_of] in *.
    - destruct Vc as [b ->], Vd as [b' ->]. cbn in E. congruence.
    - destruct Vc, Vd; cbn [concat app] in E; injection E; intros; subst; try (exfalso; lia); reflexivity.
    - destruct Vc, Vd; cbn [concat app] in E; injection E; intros; subst; try (exfalso; lia); reflexivity. }
  subst d. cbn [concat] in E. rewrite <- app_assoc in E. apply app_inv_head in E.
  destruct (IH tc Vp Vt) as [r ->]; [exists rest; auto|]. exists r. reflexivity.
Qed.
Lemma last_percent cs d0 : char_of cs (d0 ++ [37]) -> d0 = [].
Proof.
  intros V. remember (d0 ++ [37]) as d eqn:E. apply (f_equal (@rev Z)) in E. rewrite rev_app_distr in E. cbn [rev app] in E.
  assert (K : rev d0 = [] -> d0 = []) by (intros Q; apply (f_equal (@rev Z)) in Q; rewrite rev_involutive in Q; auto).
  apply K. destruct cs; cbn [char_of] in V.
  - destruct V as [b ->]. cbn in E. congruence.
  - destruct V; cbn [rev app] in E; injection E as E1 E2; auto; unfold cont in *; exfalso; lia.
  - destruct V; cbn [rev app] in E; injection E as E1 E2; auto; exfalso; lia.
Qed.
Lemma rewrite_ok cs pc tc lo hi : Forall (char_of cs) pc -> Forall (char_of cs) tc -> bytes_ok (concat pc) -> bytes_ok (concat tc) ->
  ~ In 92 (concat pc) -> like_node_optimize (concat pc) = RRange lo hi -> ~ Forall (eq 255) lo ->
  (like_one cs (concat tc) (concat pc) = true <-> in_like_range lo hi (concat tc) = true).
Proof.
  intros Vp Vt Bp Bt N92 R NF. destruct (rewritten _ _ _ N92 R) as (E & -> & L0 & N37 & N95).
  (* split the characters of the pattern before the final % *)
  assert (X : exists qc, pc = qc ++ [[37]] /\ concat qc = lo).
  { assert (P0 : pc <> []) by (intros ->; destruct lo; discriminate).
    destruct (exists_last P0) as (qc & d & ->). assert (Vd : char_of cs d) by (apply Forall_app in Vp as [_ Vp]; inversion Vp; auto).
    rewrite concat_app in E. cbn [concat] in E. rewrite app_nil_r in E.
    assert (Ed : exists d0 z, d = d0 ++ [z]).
    { destruct (exists_last (char_nonempty cs d Vd)) as (d0 & z & ->). eauto. }
    destruct Ed as (d0 & z & ->). rewrite app_assoc in E. apply app_inj_tail in E as [E ->].
    assert (d0 = []) by (apply (last_percent cs); auto).
    subst d0. cbn [app] in *. rewrite app_nil_r in E. exists qc. auto. }
  destruct X as (qc & -> & Eq). apply Forall_app in Vp as [Vq _].
  assert (NIn : forall z, ~ In z lo -> ~ In [z] qc).
  { intros z Hz Hin. apply Hz. rewrite <- Eq. apply in_concat. exists [z]. cbn. auto. }
  assert (N92' : ~ In 92 lo) by (intros H; apply N92; rewrite E; apply in_or_app; auto).
  rewrite like_one_wf; [|auto|apply Forall_app; split; auto; constructor; auto; destruct cs; cbn; [eauto|constructor; lia|constructor; lia]].
  rewrite items_plain by (apply NIn; auto). rewrite match_lits.
  assert (Blo : bytes_ok lo) by (rewrite E in Bp; apply Forall_app in Bp as [Bp _]; auto).
  rewrite <- (prefix_range lo (concat tc)) by auto. split.
  - intros [r ->]. exists (concat r). rewrite concat_app, Eq. reflexivity.
  - intros S. apply (prefix_chars cs); auto. rewrite Eq. auto.
Qed.

(* ---- readings of arbitrary strings ---- *)
Lemma next_char cs s : bytes_ok s -> next_code_point cs s <> [] -> char_of cs (next_code_point cs s).
Proof.
  intros B N. destruct cs; cbn [char_of next_code_point] in *.
  - destruct s as [|b s]; cbn in *; [congruence|eauto].
  - unfold utf8_next in *. destruct s as [|b s]; [congruence|]. inversion B as [|? ? Hb Hs]; subst. unfold is_byte in Hb.
    destruct (byte_bits b Hb) as (E1 & E2 & E3 & E4 & _). rewrite E1, E2, E3, E4 in *.
    assert (CT : forall k z, In z (firstn k s) -> (k <= cont_run s)%nat -> cont z).
    { intros k z Hz Hk. pose proof (cont_run_in s z k Hz Hk) as C. assert (Z0 : 0 <= z < 256).
      { unfold bytes_ok in Hs. rewrite Forall_forall in Hs. apply Hs. rewrite <- (firstn_skipn k s). apply in_or_app; auto. }
      destruct (byte_bits z Z0) as (_ & _ & _ & _ & E). apply Z.eqb_eq in C. rewrite E in C. unfold cont. lia. }
    assert (LE : (cont_run s <= length s)%nat) by (clear; induction s as [|x s IH]; cbn; [lia|destruct (_ =? _); lia]).
    unfold char_size in *. cbn [tl] in *.
    destruct (Z.ltb_spec b 128); [constructor; lia|].
    destruct ((192 <=? b) && (b <? 224)) eqn:C1.
    { destruct (Nat.eqb_spec (S (cont_run s)) 2) as [E|E]; [|congruence].
      destruct s as [|c s]; [cbn in E; lia|]. constructor; [lia|]. apply (CT 1%nat); [cbn; auto|lia]. }
    destruct ((224 <=? b) && (b <? 240)) eqn:C2.
    { destruct (Nat.eqb_spec (S (cont_run s)) 3) as [E|E]; [|congruence].
      destruct s as [|c [|d s]]; [cbn in E; lia|cbn [length] in LE; lia|]. constructor; [lia|apply (CT 2%nat); [cbn; auto|lia]|apply (CT 2%nat); [cbn; auto|lia]]. }
    destruct (Z.leb_spec 240 b); [|congruence].
    destruct (Nat.eqb_spec (S (cont_run s)) 4) as [E|E]; [|congruence].
    destruct s as [|c [|d [|f s]]]; [cbn in E; lia|cbn [length] in LE; lia|cbn [length] in LE; lia|].
    constructor; [lia|apply (CT 3%nat); [cbn; auto|lia]|apply (CT 3%nat); [cbn; auto|lia]|apply (CT 3%nat); [cbn; auto|lia]].
  - unfold gbk_next in *. destruct s as [|b s]; [congruence|]. inversion B as [|? ? Hb Hs]; subst. unfold is_byte in Hb.
    destruct (byte_bits b Hb) as (E1 & _). rewrite E1 in *.
    destruct (Z.ltb_spec b 128); [constructor; lia|]. destruct s as [|c s]; [congruence|]. unfold in_range in *.
    destruct (_ && _) eqn:Q; [|congruence]. constructor; lia.
Qed.
Lemma units_reading cs s : bytes_ok s -> reading (char_of cs) s (units cs s).
Proof.
  intros B. split; [apply units_concat|]. remember (length s) as n eqn:E. revert s B E. induction n as [n IH] using lt_wf_ind. intros s B E.
  destruct s as [|b s]; [constructor|]. pose proof (offset_bound cs (b :: s) ltac:(congruence)) as OB.
  rewrite units_cons by congruence. constructor.
  - destruct (next_code_point cs (b :: s)) as [|x y] eqn:Q.
    + right. unfold offset. rewrite Q. cbn. eauto.
    + left. rewrite offset_next by congruence.
      replace (firstn (length (next_code_point cs (b :: s))) (b :: s)) with (next_code_point cs (b :: s)).
      * apply next_char; auto. congruence.
      * pose proof (skip_next cs (b :: s)) as SN. set (c := next_code_point cs (b :: s)) in *. rewrite SN at 1.
        rewrite firstn_app, firstn_all, Nat.sub_diag. cbn. rewrite app_nil_r. reflexivity.
  - eapply IH; [| |reflexivity].
    + rewrite skipn_length. subst n. cbn [length] in *. lia.
    + unfold bytes_ok in *. rewrite <- (firstn_skipn (offset cs (b :: s)) (b :: s)) in B. apply Forall_app in B. tauto.
Qed.
Lemma true_reading cs t p : bytes_ok t -> bytes_ok p -> like_one cs t p = true ->
  exists us vs, reading (char_of cs) t us /\ reading (char_of cs) p vs /\ matches (items vs) us.
Proof.
  intros Bt Bp H. destruct (like_one_either cs t p H) as [M|M].
  - exists (units cs t), (units cs p). auto using units_reading.
  - assert (R : forall s, reading (char_of cs) s (bytes_of s)).
    { intros s. split; [apply bytes_of_char|]. apply Forall_map, Forall_forall. intros b _. right. eauto. }
    exists (bytes_of t), (bytes_of p). auto.
Qed.
