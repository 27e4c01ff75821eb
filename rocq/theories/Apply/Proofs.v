(** * Proofs for [Apply.Model] *)
From Coq Require Import List Arith ZArith Lia Bool.
From Verif Require Import Apply.Model Apply.Spec.
Import ListNotations.

Section Proofs.
Context {W : Type}.
Implicit Types (d : disk W) (m : mem W) (p : ptxn W) (o : option (ptxn W)) (e : entry W) (log : list (entry W)).

(** ** Records *)

Lemma lookup_remove : forall (A : Type) k x (l : list (nat * A)),
  lookup x (remove k l) = if x =? k then None else lookup x l.
Proof.
  induction l as [|[y a] l IH]; cbn [remove filter lookup fst].
  - destruct (x =? k); reflexivity.
  - destruct (y =? k) eqn:E; cbn [negb].
    + apply Nat.eqb_eq in E; subst y. fold (remove k l). rewrite IH.
      destruct (x =? k) eqn:F; [reflexivity|].
      rewrite (Nat.eqb_sym k x), F. reflexivity.
    + cbn [lookup]. fold (remove k l). rewrite IH.
      destruct (y =? x) eqn:G; [|reflexivity].
      apply Nat.eqb_eq in G; subst y. rewrite E. reflexivity.
Qed.

Lemma lookup_store : forall (A : Type) k x (a : A) l,
  lookup x (store k a l) = if x =? k then Some a else lookup x l.
Proof.
  intros. unfold store. cbn [lookup]. rewrite lookup_remove, (Nat.eqb_sym k x).
  destruct (x =? k); reflexivity.
Qed.

Lemma lookup_In : forall (A : Type) k (a : A) l, lookup k l = Some a -> In (k, a) l.
Proof.
  induction l as [|[y b] l IH]; cbn; [discriminate|].
  destruct (y =? k) eqn:E; intro Q; [|auto].
  apply Nat.eqb_eq in E; injection Q as <-; subst; auto.
Qed.

Lemma In_lookup : forall (A : Type) k (a : A) l, NoDup (map fst l) -> In (k, a) l -> lookup k l = Some a.
Proof.
  induction l as [|[y b] l IH]; cbn; [intros _ []|].
  intros ND [Q|Q]; inversion ND as [|? ? N1 N2]; subst.
  - injection Q as -> ->. rewrite Nat.eqb_refl. reflexivity.
  - destruct (y =? k) eqn:E; [|auto].
    apply Nat.eqb_eq in E; subst. exfalso; apply N1.
    change k with (fst (k, a)). apply in_map, Q.
Qed.

Lemma keys_lookup : forall (A : Type) k (l : list (nat * A)), In k (map fst l) <-> lookup k l <> None.
Proof.
  induction l as [|[y b] l IH]; cbn; [split; [intros []|congruence]|].
  destruct (y =? k) eqn:E.
  - apply Nat.eqb_eq in E. split; [congruence|auto].
  - apply Nat.eqb_neq in E. rewrite <- IH. split; [intros [|]; [congruence|auto]|auto].
Qed.

Lemma keys_remove : forall (A : Type) k x (l : list (nat * A)),
  In x (map fst (remove k l)) -> In x (map fst l) /\ x <> k.
Proof.
  intros A k x l. rewrite !keys_lookup, lookup_remove.
  destruct (x =? k) eqn:E; [congruence|]. apply Nat.eqb_neq in E. auto.
Qed.

Lemma NoDup_remove_keys : forall (A : Type) k (l : list (nat * A)),
  NoDup (map fst l) -> NoDup (map fst (remove k l)).
Proof.
  induction l as [|[y b] l IH]; cbn; intro ND; [constructor|].
  inversion ND as [|? ? N1 N2]; subst.
  destruct (y =? k); cbn; [auto|].
  constructor; [|auto].
  intro Q. apply N1. fold (remove k l) in Q. apply keys_remove in Q. tauto.
Qed.

Lemma NoDup_store_keys : forall (A : Type) k (a : A) l,
  NoDup (map fst l) -> NoDup (map fst (store k a l)).
Proof.
  intros A k a l ND. cbn. constructor.
  - intro Q. apply keys_remove in Q. tauto.
  - apply NoDup_remove_keys, ND.
Qed.

Lemma mem_nat_In : forall x l, mem_nat x l = true <-> In x l.
Proof.
  intros. unfold mem_nat. rewrite existsb_exists. split.
  - intros [y [Q E]]. apply Nat.eqb_eq in E; subst; auto.
  - intro Q. exists x. split; [auto|apply Nat.eqb_refl].
Qed.

Lemma writes_app : forall d a b, writes d (a ++ b) = writes (writes d a) b.
Proof. intros. unfold writes. apply fold_left_app. Qed.

(** ** The model's transaction steps against the meaning's *)

Definition pr (s : stmt W) : nat * W := (s_seq s, s_w s).
Definition abs (p : ptxn W) : otx W := mkO (p_seq p) (map pr (p_stmts p)) (p_prep p).

Lemma drop_strip : forall bad l, map pr (drop_bad bad l) = strip bad (map pr l).
Proof.
  induction l as [|s l IH]; cbn; [reflexivity|].
  unfold mem_nat. destruct (existsb _ bad); [exact IH|reflexivity].
Qed.

Lemma undo_stand : forall bad l, map pr (undo bad l) = stand bad (map pr l).
Proof. intros. unfold undo, stand. rewrite map_rev, drop_strip, map_rev. reflexivity. Qed.

Lemma pr_shipped : forall b s, pr (shipped b s) = pr s.
Proof. intros [] []; reflexivity. Qed.

Lemma seq_shipped : forall b (s : stmt W), s_seq (shipped b s) = s_seq s.
Proof. intros [] []; reflexivity. Qed.

Lemma abs_run_stmt : forall bad p (s s' : stmt W), pr s = pr s' ->
  abs (run_stmt bad p s) = statement bad (abs p) s'.
Proof.
  intros bad p s s' E. unfold abs, run_stmt, statement; cbn.
  assert (E1 : s_seq s = s_seq s') by (unfold pr in E; congruence).
  assert (E2 : s_w s = s_w s') by (unfold pr in E; congruence).
  rewrite E1. unfold mem_nat. f_equal.
  destruct (existsb _ bad).
  - apply undo_stand.
  - rewrite map_app, undo_stand. cbn. rewrite E. unfold pr. rewrite ?E1, ?E2. reflexivity.
Qed.

Lemma abs_run_cached : forall bad last l p,
  abs (run_cached bad last l p) = statements bad last l (abs p).
Proof.
  induction l as [|s l IH]; intro p; cbn; [reflexivity|].
  unfold run_cached, statements in *. rewrite IH. f_equal.
  destruct (s_seq s <=? last); [reflexivity|]. apply abs_run_stmt. reflexivity.
Qed.

Lemma prep_run_cached : forall bad last l p, p_prep (run_cached bad last l p) = p_prep p.
Proof.
  induction l as [|s l IH]; intro p; cbn; [reflexivity|].
  unfold run_cached in *. rewrite IH. destruct (s_seq s <=? last); reflexivity.
Qed.

Lemma abs_begin : forall o b, option_map abs (begin o b) = opened (option_map abs o) b.
Proof. intros [p|] []; reflexivity. Qed.

Lemma abs_seq : forall o, last_of (option_map abs o) = seq_of o.
Proof. intros [p|]; reflexivity. Qed.

Lemma p_writes_abs : forall p, p_writes p = map snd (o_run (abs p)).
Proof. intro p. unfold p_writes, abs. cbn. rewrite map_map. reflexivity. Qed.

Definition prepb (o : option (ptxn W)) : bool := match o with Some p => p_prep p | None => false end.

(** What one entry of transaction [t] writes, by its fate. *)
Definition shape (t i : nat) e (o : option (ptxn W)) (f : fate W) (ws : list (dwrite W)) : Prop :=
  match f with
  | Stays None => o = None /\ ws = []
  | Stays (Some y) =>
      ws = begin_writes o t i ++
           (if o_prep y && negb (prepb o) then [WPrepare t (map snd (o_run y))] else [])
  | Commits b =>
      exists n1,
        ((exists seq p, e = ECommit t seq /\ o = Some p /\ p_prep p = true /\ b = p_writes p /\
            ws = [WPre t n1 i; WCommit t b; WAfter t n1 i false]) \/
         (exists bg bad seq c, e = EPrep t bg bad seq c true /\ seq_of o < seq /\
            ws = begin_writes o t i ++ (if prepb o then [] else [WPrepare t b]) ++
                 [WPre t n1 i; WCommit t b; WAfter t n1 i false]))
  | Drops rb =>
      exists n1 n2 tag,
        ((exists seq p, e = ECommit t seq /\ o = Some p /\ p_prep p = false /\ rb = None /\
            tag = false /\ ws = [WPre t n1 i; WAfter t n2 i tag]) \/
         (exists bg seq, e = ERoll t bg seq tag /\ rb = Some tag /\
            ws = begin_writes o t i ++ [WPre t n1 i] ++
                 (if prepb o then [WRollback t] else []) ++ [WAfter t n2 i tag]))
  end.

Lemma exec_spec : forall rep i n e o t ws o' n', txn_of e = Some t ->
  exec_txn rep i n e o = (ws, o', n') ->
  let f := fate_of e (option_map abs o) in
  option_map abs o' = match f with Stays x => x | _ => None end /\ shape t i e o f ws.
Proof.
  intros rep i n e o t ws o' n' T E. cbv zeta.
  destruct e as [w r| |t0 bg bad s|t0 bg bad sq c one|t0 sq|t0 bg sq prim];
    cbn in T; try discriminate; injection T as ->; cbn [exec_txn fate_of] in *.
  - (* statement *)
    rewrite abs_seq, <- abs_begin.
    destruct (begin o bg) as [p|] eqn:B; cbn [option_map].
    + injection E as <- <- <-. cbn [option_map shape]. split.
      * f_equal. destruct (s_seq s <=? seq_of o); [reflexivity|].
        apply abs_run_stmt, pr_shipped.
      * assert (PP : o_prep (if s_seq s <=? seq_of o then abs p else statement bad (abs p) s) = prepb o).
        { transitivity (p_prep p); [destruct (s_seq s <=? seq_of o); reflexivity|].
          destruct o as [q|]; cbn in B; [injection B as ->; reflexivity|].
          destruct bg; [|discriminate]. injection B as <-. reflexivity. }
        rewrite PP, Bool.andb_negb_r, app_nil_r. reflexivity.
    + injection E as <- <- <-. destruct o as [q|]; [discriminate|]. cbn. auto.
  - (* prepare *)
    rewrite abs_seq.
    set (X := if seq_of o <? sq - 1 then option_map (run_cached bad (seq_of o) c) (begin o bg) else o) in *.
    assert (XA : (if seq_of o <? sq - 1
                  then option_map (statements bad (seq_of o) c) (opened (option_map abs o) bg)
                  else option_map abs o) = option_map abs X).
    { unfold X. destruct (seq_of o <? sq - 1); [|reflexivity].
      rewrite <- abs_begin. destruct (begin o bg); cbn; [|reflexivity].
      rewrite abs_run_cached. reflexivity. }
    rewrite XA.
    assert (XP : forall p, X = Some p -> p_prep p = prepb o).
    { intros p Q. unfold X in Q. destruct (seq_of o <? sq - 1).
      - destruct (begin o bg) as [q|] eqn:B; [|discriminate]. cbn in Q. injection Q as <-.
        rewrite prep_run_cached.
        destruct o as [q'|]; cbn in B; [injection B as ->; reflexivity|].
        destruct bg; [|discriminate]. injection B as <-. reflexivity.
      - subst o. reflexivity. }
    assert (XN : X = None -> o = None).
    { intro Q. unfold X in Q. destruct o as [q|]; [|reflexivity]. cbn [begin option_map] in Q.
      destruct (seq_of (Some q) <? sq - 1); discriminate. }
    assert (XS : sq <= seq_of o -> X = o).
    { intro Q. unfold X. replace (seq_of o <? sq - 1) with false; [reflexivity|].
      symmetry. apply Nat.ltb_ge. lia. }
    destruct X as [p|] eqn:EX; cbn [option_map].
    + destruct (sq <=? seq_of o) eqn:SQ.
      * injection E as <- <- <-. cbn [option_map shape]. split; [reflexivity|].
        apply Nat.leb_le in SQ. specialize (XS SQ). subst o. cbn.
        rewrite Bool.andb_negb_r. reflexivity.
      * assert (PW : map s_w (undo bad (p_stmts p)) = map snd (stand bad (o_run (abs p)))).
        { unfold abs. cbn [o_run]. rewrite <- undo_stand, map_map. reflexivity. }
        destruct one.
        -- injection E as <- <- <-. cbn [option_map shape]. split; [reflexivity|].
           eexists. right. exists bg, bad, sq, c. split; [reflexivity|]. split; [apply Nat.leb_gt, SQ|].
           rewrite (XP p eq_refl). unfold p_writes. cbn [p_stmts].
           rewrite PW. reflexivity.
        -- injection E as <- <- <-. cbn [option_map shape o_prep o_run andb]. split.
           ++ unfold abs; cbn [p_seq p_stmts p_prep o_run]. rewrite undo_stand. reflexivity.
           ++ rewrite (XP p eq_refl). unfold p_writes. cbn [p_stmts]. rewrite PW.
              destruct (prepb o); reflexivity.
    + injection E as <- <- <-. rewrite (XN eq_refl). cbn. auto.
  - (* commit *)
    destruct o as [p|]; cbn [option_map] in *.
    + cbn [o_seq o_prep abs] in *. destruct (sq <=? p_seq p).
      * injection E as <- <- <-. cbn. rewrite Bool.andb_negb_r. auto.
      * destruct (p_prep p) eqn:PP.
        -- injection E as <- <- <-. split; [reflexivity|]. cbn [shape].
           eexists. left. exists sq, p. repeat split; auto.
           all: rewrite p_writes_abs; reflexivity.
        -- injection E as <- <- <-. split; [reflexivity|]. cbn [shape].
           do 3 eexists. left. exists sq, p. repeat split; auto.
    + injection E as <- <- <-. cbn. auto.
  - (* rollback *)
    rewrite abs_seq.
    set (X := if seq_of o <? sq - 1 then begin o bg else o) in *.
    assert (XA : (if seq_of o <? sq - 1 then opened (option_map abs o) bg else option_map abs o)
                 = option_map abs X).
    { unfold X. destruct (seq_of o <? sq - 1); [|reflexivity]. rewrite <- abs_begin. reflexivity. }
    rewrite XA.
    assert (XP : forall p, X = Some p -> p_prep p = prepb o).
    { intros p Q. unfold X in Q. destruct (seq_of o <? sq - 1); [|subst o; reflexivity].
      destruct o as [q'|]; cbn in Q; [injection Q as ->; reflexivity|].
      destruct bg; [|discriminate]. injection Q as <-. reflexivity. }
    assert (XN : X = None -> o = None).
    { intro Q. unfold X in Q. destruct o as [q|]; [|reflexivity]. cbn [begin option_map] in Q.
      destruct (seq_of (Some q) <? sq - 1); discriminate. }
    assert (XS : sq <= seq_of o -> X = o).
    { intro Q. unfold X. replace (seq_of o <? sq - 1) with false; [reflexivity|].
      symmetry. apply Nat.ltb_ge. lia. }
    destruct X as [p|] eqn:EX; cbn [option_map].
    + destruct (sq <=? seq_of o) eqn:SQ.
      * injection E as <- <- <-. cbn [option_map shape]. split; [reflexivity|].
        apply Nat.leb_le in SQ. specialize (XS SQ). subst o. cbn.
        rewrite Bool.andb_negb_r. reflexivity.
      * injection E as <- <- <-. split; [reflexivity|]. cbn [shape].
        exists n, n, prim. right. exists bg, sq. split; [reflexivity|]. split; [reflexivity|].
        rewrite (XP p eq_refl). reflexivity.
    + injection E as <- <- <-. rewrite (XN eq_refl). cbn. auto.
Qed.

(** ** The meaning, entry by entry *)

Lemma entry_at_bound : forall log i e, entry_at log i = Some e -> 1 <= i <= length log.
Proof.
  intros log [|i] e Q; cbn in Q; [discriminate|].
  assert (i < length log) by (apply nth_error_Some; congruence). lia.
Qed.

Lemma entry_at_some : forall log i, 1 <= i <= length log -> exists e, entry_at log i = Some e.
Proof.
  intros log [|i] Q; [lia|]. cbn.
  destruct (nth_error log i) eqn:E; [eauto|]. apply nth_error_None in E. lia.
Qed.

Lemma firstn_S_snoc : forall (A : Type) n (l : list A) a, nth_error l n = Some a ->
  firstn (S n) l = firstn n l ++ [a].
Proof.
  induction n as [|n IH]; intros [|x l] a E; cbn in *; try discriminate.
  - injection E as ->. reflexivity.
  - f_equal. apply IH, E.
Qed.

Lemma mean_S : forall log n e, entry_at log (S n) = Some e ->
  mean log (S n) = mean_step (mean log n) e.
Proof.
  intros log n e E. cbn in E. unfold mean. rewrite (firstn_S_snoc _ _ _ _ E), fold_left_app. reflexivity.
Qed.

Lemma mean_0 : forall log, mean log 0 = nothing.
Proof. reflexivity. Qed.

Lemma upd_same : forall (A : Type) (f : nat -> A) k a, upd f k a k = a.
Proof. intros. unfold upd. rewrite Nat.eqb_refl. reflexivity. Qed.
Lemma upd_other : forall (A : Type) (f : nat -> A) k a x, x <> k -> upd f k a x = f x.
Proof. intros. unfold upd. apply Nat.eqb_neq in H. rewrite H. reflexivity. Qed.

(** An entry changes only its own transaction. *)
Lemma open_other : forall s e t, txn_of e <> Some t -> sp_open (mean_step s e) t = sp_open (W:=W) s t.
Proof.
  intros s e t N. destruct e; cbn in *; try reflexivity;
    match goal with |- context [match ?X with Stays _ => _ | _ => _ end] => destruct X as [|?|[|]] end;
    cbn; apply upd_other; congruence.
Qed.

Lemma open_own : forall s e t, txn_of e = Some t ->
  sp_open (mean_step s e) t = match fate_of e (sp_open (W:=W) s t) with Stays x => x | _ => None end.
Proof.
  intros s e t N. destruct e; cbn [txn_of] in N; try discriminate; injection N as ->;
    cbn [mean_step txn_of];
    match goal with |- context [match ?X with Stays _ => _ | _ => _ end] => destruct X as [|?|[|]] end;
    cbn [sp_open]; apply upd_same.
Qed.

Definition ends (f : fate W) : Prop := match f with Stays _ => False | _ => True end.

Lemma ends_may_end : forall e (o : option (otx W)), ends (fate_of e o) -> may_end e = true.
Proof.
  intros e o. destruct e as [| |t b bad s|t b bad sq c [|]|t sq|t b sq p]; cbn [fate_of ends may_end]; try tauto.
  - destruct (opened o b); cbn [ends]; tauto.
  - destruct (if last_of o <? sq - 1 then _ else _); [|cbn [ends]; tauto]. destruct (sq <=? last_of o); cbn [ends]; tauto.
Qed.

Lemma opens_may_open : forall e, fate_of e None <> Stays None -> may_open e = true.
Proof.
  intros e. destruct e as [| |t b bad s|t b bad sq c one|t sq|t b sq p]; cbn; try congruence.
  - destruct b; cbn; congruence.
  - destruct b; [congruence|]. destruct (sq - 1); cbn; congruence.
  - destruct b; [congruence|]. destruct (sq - 1); cbn; congruence.
Qed.

Lemma stays_none : forall e (o : option (otx W)), fate_of e o = Stays None -> o = None.
Proof.
  intros e o. destruct e as [| |t b bad s|t b bad sq c one|t sq|t b sq p]; cbn [fate_of]; intro Q.
  - congruence.
  - congruence.
  - destruct o as [x|]; [cbn in Q; discriminate|reflexivity].
  - destruct o as [x|]; [|reflexivity]. exfalso. cbn [last_of opened option_map] in Q.
    destruct (o_seq x <? sq - 1); destruct (sq <=? o_seq x), one; discriminate.
  - destruct o as [x|]; [|reflexivity]. exfalso. destruct (_ <=? _), (o_prep x); discriminate.
  - destruct o as [x|]; [|reflexivity]. exfalso. cbn [last_of opened option_map] in Q.
    destruct (o_seq x <? sq - 1); destruct (sq <=? o_seq x); discriminate.
Qed.

(** A transaction that was open earlier and is not now was ended by an entry in between. *)
Lemma closed_between : forall log t n j, j <= n -> n <= length log ->
  sp_open (mean log j) t <> None -> sp_open (mean log n) t = None ->
  exists i e, j < i <= n /\ entry_at log i = Some e /\ txn_of e = Some t /\ may_end e = true.
Proof.
  induction n as [|n IH]; intros j J L O1 O2.
  - assert (j = 0) by lia. subst. congruence.
  - destruct (Nat.eq_dec j (S n)) as [->|N]; [congruence|].
    destruct (sp_open (mean log n) t) as [x|] eqn:E.
    + destruct (entry_at_some log (S n) ltac:(lia)) as [e Ee].
      exists (S n), e. split; [lia|]. split; [auto|].
      rewrite (mean_S _ _ _ Ee) in O2.
      destruct (txn_of e) as [t'|] eqn:T.
      * destruct (Nat.eq_dec t' t) as [->|NE].
        -- split; [auto|]. rewrite (open_own _ _ _ T), E in O2.
           apply (ends_may_end e (Some x)).
           destruct (fate_of e (Some x)) as [o| |] eqn:F; cbn; auto.
           subst o. apply stays_none in F. discriminate.
        -- rewrite open_other in O2 by congruence. congruence.
      * rewrite open_other in O2 by congruence. congruence.
    + destruct (IH j ltac:(lia) ltac:(lia) O1 eq_refl) as [i [e [A [B [C D]]]]].
      exists i, e. repeat split; auto; lia.
Qed.

(** [t] is opened by entry [f] and open since, up to [n]. *)
Definition opened_at log (t f n : nat) : Prop :=
  1 <= f <= n /\ sp_open (mean log (f - 1)) t = None /\
  forall j, f <= j <= n -> sp_open (mean log j) t <> None.

(** Entry [i] brings transaction [t] in (and may end it at once). *)
Definition brings log (t i : nat) : Prop :=
  1 <= i <= length log /\ sp_open (mean log (i - 1)) t = None /\
  exists e, entry_at log i = Some e /\ txn_of e = Some t /\ fate_of e None <> Stays None.

Lemma opened_brings : forall log t f n, n <= length log -> opened_at log t f n -> brings log t f.
Proof.
  intros log t f n L [A [B C]]. split; [lia|]. split; [auto|].
  destruct (entry_at_some log f ltac:(lia)) as [e Ee]. exists e. split; [auto|].
  specialize (C f ltac:(lia)). destruct f as [|f]; [lia|].
  rewrite (mean_S _ _ _ Ee) in C. replace (S f - 1) with f in B by lia.
  destruct (txn_of e) as [t'|] eqn:T.
  - destruct (Nat.eq_dec t' t) as [->|NE].
    + split; [auto|]. rewrite (open_own _ _ _ T), B in C. intro Q. rewrite Q in C. congruence.
    + rewrite open_other in C by congruence. congruence.
  - rewrite open_other in C by congruence. congruence.
Qed.

(** Before that entry the transaction was never open, and no entry of it did anything. *)
Lemma never_before : forall log t i j, proper log -> brings log t i -> j < i ->
  sp_open (mean log j) t = None.
Proof.
  intros log t i j [P1 _] [A [B [e [Ee [T F]]]]] J.
  destruct (sp_open (mean log j) t) as [x|] eqn:E; [|reflexivity]. exfalso.
  destruct (closed_between log t (i - 1) j ltac:(lia) ltac:(lia)) as [i' [e' [K1 [K2 [K3 K4]]]]];
    [congruence|auto|].
  pose proof (P1 i' i e' e t ltac:(lia) K2 Ee K3 T K4) as Q.
  rewrite (opens_may_open e F) in Q. discriminate.
Qed.

Lemma noop_before : forall log t i j e, proper log -> brings log t i -> S j < i ->
  entry_at log (S j) = Some e -> txn_of e = Some t -> fate_of e None = Stays None.
Proof.
  intros log t i j e P B J Ee T.
  pose proof (never_before log t i j P B ltac:(lia)) as N0.
  pose proof (never_before log t i (S j) P B ltac:(lia)) as N1.
  rewrite (mean_S _ _ _ Ee), (open_own _ _ _ T), N0 in N1.
  destruct (fate_of e None) as [o|b|r] eqn:F; [congruence| |]; exfalso;
  destruct P as [P1 _]; destruct B as [_ [_ [e' [Ee' [T' F']]]]];
    pose proof (P1 (S j) i e e' t ltac:(lia) Ee Ee' T T') as Q;
    rewrite (opens_may_open e' F') in Q; 
    (assert (may_end e = true) by (apply (ends_may_end e None); rewrite F; exact Logic.I));
    intuition congruence.
Qed.

(** ** Invariants *)

(** Transactions that end as [ex] is exempted from the claims about records. *)
Record base log d (n : nat) (ex : nat -> Prop) : Prop := mkBase {
  b_data : d_data d = sp_data (mean log n);
  b_tag1 : incl (d_tag d) (sp_rolled (mean log n));
  b_tag2 : incl (sp_tag (mean log n)) (d_tag d);
  b_nd : NoDup (map fst (d_log d));
  b_log : forall t f, ~ ex t -> lookup t (d_log d) = Some f -> opened_at log t f n;
  b_log' : forall t, sp_open (mean log n) t <> None -> lookup t (d_log d) <> None;
  b_pre : forall t, ~ ex t -> lookup t (d_pre d) <> None -> sp_open (mean log n) t <> None }.

Definition prep_view (o : option (otx W)) : option (list W) :=
  match o with Some x => if o_prep x then Some (map snd (o_run x)) else None | None => None end.

Record core log d (pool : nat -> option (ptxn W)) (n : nat) (ex : nat -> Prop) : Prop := mkCore {
  k_base : base log d n ex;
  k_pool : forall t, option_map abs (pool t) = sp_open (mean log n) t;
  k_prep : forall t, lookup t (d_prep d) = prep_view (sp_open (mean log n) t) }.

Definition none : nat -> Prop := fun _ => False.

(** The writes of an entry of [t] leave the records of other transactions alone. *)
Definition about (t : nat) (x : dwrite W) : Prop :=
  match x with
  | WOut _ _ _ | WIdx _ => False
  | WBegin u _ | WPrepare u _ | WPre u _ _ | WCommit u _ | WRollback u | WAfter u _ _ _ | WClear u => u = t
  end.

Lemma about_other : forall t ws d x, Forall (about t) ws -> x <> t ->
  lookup x (d_log (writes d ws)) = lookup x (d_log d) /\
  lookup x (d_pre (writes d ws)) = lookup x (d_pre d) /\
  lookup x (d_prep (writes d ws)) = lookup x (d_prep d).
Proof.
  induction ws as [|w ws IH]; intros d x F N; cbn [writes fold_left]; [auto|].
  inversion F as [|? ? F1 F2]; subst. change (fold_left write ws (write d w)) with (writes (write d w) ws).
  destruct (IH (write d w) x F2 N) as [A [B C]]. rewrite A, B, C.
  apply Nat.eqb_neq in N.
  destruct w; cbn [about] in F1; try contradiction; subst; cbn [write d_log d_pre d_prep];
    rewrite ?lookup_store, ?lookup_remove, ?N; auto.
Qed.

Lemma about_nd : forall t ws d, Forall (about t) ws -> NoDup (map fst (d_log d)) ->
  NoDup (map fst (d_log (writes d ws))).
Proof.
  induction ws as [|w ws IH]; intros d F N; cbn [writes fold_left]; [auto|].
  inversion F as [|? ? F1 F2]; subst. apply IH; [auto|].
  destruct w; cbn [about] in F1; try contradiction; subst; cbn [write d_log]; auto;
    [apply NoDup_store_keys|apply NoDup_remove_keys|apply NoDup_remove_keys]; auto.
Qed.

Lemma shape_about : forall t i e o f ws, shape t i e o f ws -> Forall (about t) ws.
Proof.
  intros t i e o f ws SH.
  assert (BW : Forall (about t) (begin_writes o t i)).
  { destruct o; cbn; repeat constructor. }
  destruct f as [[y|]|b|rb]; cbn [shape] in SH.
  - subst ws. apply Forall_app. split; [auto|]. destruct (_ && _); repeat constructor.
  - destruct SH as [_ ->]. constructor.
  - destruct SH as [n1 [(sq & p & -> & -> & _ & _ & ->)|(bg & bad & sq & c & _ & _ & ->)]].
    + repeat constructor.
    + apply Forall_app. split; [auto|]. destruct (prepb o); repeat constructor.
  - destruct SH as [n1 [n2 [tag [(sq & p & -> & -> & _ & _ & _ & ->)|(bg & sq & _ & _ & ->)]]]].
    + repeat constructor.
    + apply Forall_app. split; [auto|]. destruct (prepb o); repeat constructor.
Qed.

Lemma own_rest : forall s e t, txn_of e = Some t ->
  let f := fate_of e (sp_open (W:=W) s t) in
  sp_data (mean_step s e) = match f with Commits b => sp_data s ++ [b] | _ => sp_data s end /\
  sp_rolled (mean_step s e) = match f with Drops (Some _) => t :: sp_rolled s | _ => sp_rolled s end /\
  sp_tag (mean_step s e) = match f with Drops (Some true) => t :: sp_tag s | _ => sp_tag s end.
Proof.
  intros s e t N. destruct e; cbn [txn_of] in N; try discriminate; injection N as ->;
    cbn [mean_step txn_of]; cbv zeta;
    match goal with |- context [match ?X with Stays _ => _ | _ => _ end] => destruct X as [?|?|[[]|]] end;
    cbn; auto.
Qed.

Lemma stays_prepared : forall e x y,
  o_prep x = true -> fate_of e (Some x) = Stays (Some y) ->
  match e with
  | EStmt _ _ _ s => s_seq s <= o_seq x
  | EPrep _ _ _ sq _ _ => sq <= o_seq x
  | _ => True
  end -> y = x.
Proof.
  intros e x y P F C.
  destruct e as [| |t b bad s|t b bad sq c one|t sq|t b sq p]; cbn [fate_of last_of opened] in F.
  - congruence.
  - congruence.
  - apply Nat.leb_le in C. rewrite C in F. congruence.
  - assert (C2 : (o_seq x <? sq - 1) = false) by (apply Nat.ltb_ge; lia). rewrite C2 in F.
    apply Nat.leb_le in C. rewrite C in F. congruence.
  - destruct (sq <=? o_seq x); [congruence|]. rewrite P in F. discriminate.
  - destruct (o_seq x <? sq - 1); destruct (sq <=? o_seq x); congruence.
Qed.

Lemma prepb_abs : forall o x, option_map abs o = x ->
  prepb o = match x with Some y => o_prep y | None => false end.
Proof. intros [p|] x <-; reflexivity. Qed.

Lemma step_core : forall rep log d m n e ex,
  proper log -> entry_at log (S n) = Some e ->
  core log d (m_pool m) n ex ->
  (forall t, ex t -> txn_of e = Some t /\ sp_open (mean log n) t = None /\
     fate_of e None <> Stays None /\
     (forall y, fate_of e None = Stays (Some y) -> lookup t (d_pre d) = None)) ->
  core log (writes d (fst (apply_entry rep (S n) e m))) (m_pool (snd (apply_entry rep (S n) e m))) (S n) none.
Proof.
  intros rep log d m n e ex [P1 P2] Ee K EX.
  destruct K as [[B1 B2 B3 B4 B5 B6 B7] K2 K3].
  pose proof (mean_S _ _ _ Ee) as MS.
  pose proof (entry_at_bound _ _ _ Ee) as BD.
  destruct (txn_of e) as [t|] eqn:T.
  2:{ (* outside transactions *)
    assert (NX : forall t, ~ ex t) by (intros t Q; apply EX in Q; destruct Q; discriminate).
    assert (OO : forall t, sp_open (mean log (S n)) t = sp_open (mean log n) t).
    { intro t. rewrite MS. apply open_other. congruence. }
    assert (OA : forall t f, opened_at log t f n -> opened_at log t f (S n)).
    { intros t f [A [B C]]. split; [lia|]. split; [auto|]. intros j J.
      destruct (Nat.eq_dec j (S n)) as [->|NE]; [rewrite OO; apply C; lia|apply C; lia]. }
    destruct e; cbn [txn_of] in T; try discriminate; cbn [apply_entry fst snd writes fold_left write m_pool];
      (constructor; [constructor|..]); cbn [d_data d_tag d_log d_pre d_prep];
      try (intros; rewrite ?OO; eauto; fail);
      try (rewrite MS; cbn; rewrite ?B1; auto; fail);
      try assumption. }
  (* a transaction's entry *)
  assert (AE : apply_entry rep (S n) e m =
    (let '(ws, o, k) := exec_txn rep (S n) (m_lines m) e (m_pool m t) in
     (ws, mkMem (S n) k (upd (m_pool m) t o)))).
  { destruct e; cbn [txn_of] in T; try discriminate; injection T as ->; reflexivity. }
  rewrite AE. clear AE.
  destruct (exec_txn rep (S n) (m_lines m) e (m_pool m t)) as [[ws o'] k'] eqn:EXE.
  destruct (exec_spec _ _ _ _ _ _ _ _ _ T EXE) as [A1 SH].
  rewrite (K2 t) in A1, SH. cbn [fst snd m_pool].
  assert (OO : forall x, x <> t -> sp_open (mean log (S n)) x = sp_open (mean log n) x).
  { intros x N. rewrite MS. apply open_other. congruence. }
  assert (OT : sp_open (mean log (S n)) t =
    match fate_of e (sp_open (mean log n) t) with Stays x => x | _ => None end).
  { rewrite MS. apply open_own, T. }
  assert (OA : forall x f, x <> t -> opened_at log x f n -> opened_at log x f (S n)).
  { intros x f NE [A [B C]]. split; [lia|]. split; [auto|]. intros j J.
    destruct (Nat.eq_dec j (S n)) as [->|NJ]; [rewrite (OO x NE); apply C; lia|apply C; lia]. }
  assert (NX : forall x, x <> t -> ~ ex x).
  { intros x N Q. apply EX in Q. destruct Q as [Q _]. congruence. }

  pose proof (prepb_abs _ _ (K2 t)) as PB.
  destruct (own_rest (mean log n) e t T) as [M1 [M2 M3]]. rewrite <- MS in M1, M2, M3.
  pose proof (shape_about _ _ _ _ _ _ SH) as AB.
  assert (NP : forall x, sp_open (mean log n) t = Some x -> ~ ex t).
  { intros x Q R. apply EX in R. destruct R as [_ [R _]]. congruence. }
  assert (CORE :
    d_data (writes d ws) = sp_data (mean log (S n)) ->
    incl (d_tag (writes d ws)) (sp_rolled (mean log (S n))) ->
    incl (sp_tag (mean log (S n))) (d_tag (writes d ws)) ->
    (forall f, lookup t (d_log (writes d ws)) = Some f -> opened_at log t f (S n)) ->
    (sp_open (mean log (S n)) t <> None -> lookup t (d_log (writes d ws)) <> None) ->
    (lookup t (d_pre (writes d ws)) <> None -> sp_open (mean log (S n)) t <> None) ->
    lookup t (d_prep (writes d ws)) = prep_view (sp_open (mean log (S n)) t) ->
    core log (writes d ws) (upd (m_pool m) t o') (S n) none).
  { intros C1 C2 C3 C4 C5 C6 C7.
    constructor; [constructor|..]; auto.
    - apply (about_nd t); auto.
    - intros x f _ L. destruct (Nat.eq_dec x t) as [->|NE]; [auto|].
      destruct (about_other t ws d x AB NE) as [Q _]. rewrite Q in L. apply OA; auto.
    - intros x Q. destruct (Nat.eq_dec x t) as [->|NE]; [auto|].
      destruct (about_other t ws d x AB NE) as [R _]. rewrite R. apply B6. rewrite <- OO; auto.
    - intros x _ Q. destruct (Nat.eq_dec x t) as [->|NE]; [auto|].
      destruct (about_other t ws d x AB NE) as [_ [R _]]. rewrite R in Q. rewrite OO; auto.
    - intro x. destruct (Nat.eq_dec x t) as [->|NE].
      + rewrite upd_same, OT. exact A1.
      + rewrite upd_other by auto. rewrite OO; auto.
    - intro x. destruct (Nat.eq_dec x t) as [->|NE]; [auto|].
      destruct (about_other t ws d x AB NE) as [_ [_ R]]. rewrite R, OO; auto. }
  clear AB EXE A1.
  destruct (fate_of e (sp_open (mean log n) t)) as [[y|]|b|rb] eqn:FT; cbn [shape] in SH.
  - (* the transaction stays open *)
    assert (YP : forall x, sp_open (mean log n) t = Some x -> o_prep x = true -> y = x).
    { intros x E1 E2. rewrite E1 in FT. apply (stays_prepared e x y E2 FT), (P2 n e t x); auto. }
    apply CORE; clear CORE.
    + subst ws. rewrite M1, <- B1. destruct (m_pool m t); cbn [begin_writes]; destruct (_ && _); reflexivity.
    + subst ws. rewrite M2. destruct (m_pool m t); cbn [begin_writes]; destruct (_ && _); exact B2.
    + subst ws. rewrite M3. destruct (m_pool m t); cbn [begin_writes]; destruct (_ && _); exact B3.
    + intros f L. subst ws.
      destruct (m_pool m t) as [p|] eqn:PT; cbn [begin_writes app] in L.
      * assert (L' : lookup t (d_log d) = Some f) by (destruct (_ && _) in L; exact L).
        pose proof (K2 t) as Q. rewrite PT in Q. cbn in Q.
        destruct (B5 t f (NP _ (eq_sym Q)) L') as [A [B C]].
        split; [lia|]. split; [auto|]. intros j J.
        destruct (Nat.eq_dec j (S n)) as [->|NJ]; [rewrite OT; congruence|apply C; lia].
      * assert (f = S n).
        { destruct (_ && _) in L; cbn [writes fold_left write d_log] in L;
            rewrite lookup_store, Nat.eqb_refl in L; congruence. }
        subst f. split; [lia|]. split.
        -- replace (S n - 1) with n by lia. rewrite <- K2, PT. reflexivity.
        -- intros j J. replace j with (S n) by lia. rewrite OT. congruence.
    + intros _. subst ws. destruct (m_pool m t) as [p|] eqn:PT; cbn [begin_writes app].
      * assert (lookup t (d_log d) <> None).
        { apply B6. rewrite <- K2, PT. discriminate. }
        destruct (_ && _); assumption.
      * destruct (_ && _); cbn [writes fold_left write d_log]; rewrite lookup_store, Nat.eqb_refl; discriminate.
    + intros _. rewrite OT. discriminate.
    + rewrite OT. cbn [prep_view]. subst ws. rewrite PB.
      destruct (sp_open (mean log n) t) as [x|] eqn:ST.
      * destruct (m_pool m t) as [p|] eqn:PT; [|rewrite <- K2, PT in ST; discriminate].
        cbn [begin_writes app].
        destruct (o_prep x) eqn:PX.
        -- rewrite (YP x eq_refl PX) in *. rewrite PX. cbn [andb negb writes fold_left].
           rewrite K3, ST. cbn. rewrite PX. reflexivity.
        -- rewrite Bool.andb_true_r. destruct (o_prep y) eqn:PY.
           ++ cbn [writes fold_left write d_prep]. rewrite lookup_store, Nat.eqb_refl. reflexivity.
           ++ cbn [writes fold_left]. rewrite K3, ST. cbn. rewrite PX. reflexivity.
      * destruct (m_pool m t) as [p|] eqn:PT; [rewrite <- K2, PT in ST; discriminate|].
        cbn [begin_writes app negb]. rewrite Bool.andb_true_r. destruct (o_prep y).
        -- cbn [writes fold_left write d_prep]. rewrite lookup_store, Nat.eqb_refl. reflexivity.
        -- cbn [writes fold_left write d_prep]. rewrite K3, ST. reflexivity.
  - (* it is absent and stays so *)
    destruct SH as [PN ->]. pose proof (stays_none _ _ FT) as ON.
    assert (NE : ~ ex t).
    { intro Q. apply EX in Q. destruct Q as [_ [_ [Q _]]]. rewrite ON in FT. congruence. }
    apply CORE; clear CORE; cbn [writes fold_left].
    + congruence.
    + rewrite M2. exact B2.
    + rewrite M3. exact B3.
    + intros f L. destruct (B5 t f NE L) as [A [_ C]]. specialize (C n ltac:(lia)). congruence.
    + intro Q. congruence.
    + intro Q. apply (B7 t NE) in Q. congruence.
    + rewrite K3, OT, ON. reflexivity.
  - (* it commits *)
    destruct SH as [n1 [(sq & p & -> & PT & PP & -> & ->)|(bg & bad & sq & c & -> & SQ & ->)]].
    + apply CORE; clear CORE; rewrite ?M1, ?M2, ?M3, ?OT;
        cbn [writes fold_left write d_data d_tag d_log d_pre d_prep prep_view];
        rewrite ?lookup_remove, ?lookup_store, ?Nat.eqb_refl; try congruence; auto.
    + apply CORE; clear CORE; rewrite ?M1, ?M2, ?M3, ?OT;
        destruct (m_pool m t) as [p|]; cbn [begin_writes app]; destruct (prepb _);
        cbn [app writes fold_left write d_data d_tag d_log d_pre d_prep prep_view];
        rewrite ?lookup_remove, ?lookup_store, ?Nat.eqb_refl; try congruence; auto.
  - (* it is dropped *)
    destruct SH as [n1 [n2 [tag [(sq & p & -> & PT & PP & -> & -> & ->)|(bg & sq & -> & -> & ->)]]]].
    + apply CORE; clear CORE; rewrite ?M1, ?M2, ?M3, ?OT;
        cbn [writes fold_left write d_data d_tag d_log d_pre d_prep prep_view];
        rewrite ?lookup_remove, ?lookup_store, ?Nat.eqb_refl; try congruence; auto.
      rewrite K3. unfold prep_view.
      destruct (sp_open (mean log n) t) as [x|]; [|reflexivity].
      rewrite PT in PB. cbn in PB. rewrite <- PB, PP. reflexivity.
    + assert (PN : prepb (m_pool m t) = false -> lookup t (d_prep d) = None).
      { intro Q. rewrite K3. unfold prep_view. destruct (sp_open (mean log n) t) as [x|]; [|reflexivity].
        rewrite <- PB, Q. reflexivity. }
      remember (prepb (m_pool m t)) as pb eqn:HP; clear HP PB.
      apply CORE; clear CORE; rewrite ?M1, ?M2, ?M3, ?OT;
        destruct (m_pool m t) as [p|]; cbn [begin_writes app]; destruct pb;
        cbn [app writes fold_left write d_data d_tag d_log d_pre d_prep prep_view];
        rewrite ?lookup_remove, ?lookup_store, ?Nat.eqb_refl; try congruence; auto;
        destruct tag; auto using incl_tl;
        try (apply incl_cons; [left; reflexivity|apply incl_tl; assumption]).
      all: intros x Hx; destruct Hx as [Hx|Hx]; [left; exact Hx|right; auto].
Qed.

(** ** Replaying the entries of the open transactions *)

Lemma replay_snoc : forall l i e m,
  replay (l ++ [(i, e)]) m =
  (fst (replay l m) ++ fst (apply_entry true i e (snd (replay l m))),
   mkMem (m_idx (snd (replay l m))) (m_lines (snd (apply_entry true i e (snd (replay l m)))))
         (m_pool (snd (apply_entry true i e (snd (replay l m)))))).
Proof.
  induction l as [|[j x] l IH]; intros i e m; cbn [app replay].
  - cbn [fst snd app]. destruct (apply_entry true i e m) as [w m1]. cbn [fst snd]. rewrite app_nil_r. reflexivity.
  - destruct (apply_entry true j x m) as [w m1]. rewrite IH.
    destruct (replay l _) as [w2 m2]. cbn [fst snd]. rewrite app_assoc. reflexivity.
Qed.

Lemma entries_snoc : forall log ids lo j, lo <= S j ->
  entries_of log ids lo (S j) = entries_of log ids lo j ++ wanted log ids (S j).
Proof.
  intros. unfold entries_of. replace (S (S j) - lo) with (S j - lo + 1) by lia.
  rewrite seq_app, flat_map_app. replace (lo + (S j - lo)) with (S j) by lia.
  cbn [seq flat_map]. rewrite app_nil_r. reflexivity.
Qed.

Lemma entries_empty : forall log ids lo hi, hi < lo -> entries_of log ids lo hi = [].
Proof. intros. unfold entries_of. replace (S hi - lo) with 0 by lia. reflexivity. Qed.

Lemma base_brings : forall log d n ex t f, n <= length log -> base log d n ex -> ~ ex t ->
  lookup t (d_log d) = Some f -> brings log t f.
Proof. intros. eapply opened_brings; [eassumption|]. eapply b_log; eauto. Qed.

Definition view (ids : list nat) (s : meaning W) (t : nat) : option (otx W) :=
  if mem_nat t ids then sp_open s t else None.

Lemma replay_run : forall log d1 n ex lo m0,
  proper log -> n <= length log -> base log d1 n ex ->
  (forall t, lookup t (d_prep d1) = None) ->
  (forall t, ex t \/ ~ ex t) ->
  (forall t, ex t -> brings log t (S n)) ->
  1 <= lo -> lo <= S n ->
  (forall t f, lookup t (d_log d1) = Some f -> lo <= f) ->
  (forall t, m_pool m0 t = None) ->
  forall j, lo - 1 <= j <= n ->
  let r := replay (entries_of log (map fst (d_log d1)) lo j) m0 in
  let d := writes d1 (fst r) in
  d_data d = d_data d1 /\ d_tag d = d_tag d1 /\ d_pre d = d_pre d1 /\
  NoDup (map fst (d_log d)) /\
  (forall t, lookup t (d_log d) = lookup t (d_log d1)) /\
  m_idx (snd r) = m_idx m0 /\
  (forall t, option_map abs (m_pool (snd r) t) = view (map fst (d_log d1)) (mean log j) t) /\
  (forall t, lookup t (d_prep d) = prep_view (view (map fst (d_log d1)) (mean log j) t)).
Proof.
  intros log d1 n ex lo m0 PL NL B PE DEC EX L1 L2 LF PM.
  assert (BF : forall t, In t (map fst (d_log d1)) -> forall j, j < lo -> sp_open (mean log j) t = None).
  { intros t Q j J. destruct (DEC t) as [X|X].
    - apply (never_before log t (S n) j PL (EX t X)). lia.
    - apply keys_lookup in Q. destruct (lookup t (d_log d1)) as [f|] eqn:F; [|congruence].
      apply (never_before log t f j PL (base_brings _ _ _ _ _ _ NL B X F)).
      specialize (LF t f F). lia. }
  intros j J. destruct J as [J1 J2].
  induction j as [|j IH]; [|destruct (Nat.eq_dec lo (S (S j))) as [EL|EL]].
  - cbv zeta. rewrite entries_empty by lia. cbn [replay fst snd writes fold_left].
    repeat split; auto.
    + apply (b_nd _ _ _ _ B).
    + intro t. rewrite PM. unfold view. destruct (mem_nat t _); reflexivity.
    + intro t. rewrite PE. unfold view. destruct (mem_nat t _); reflexivity.
  - cbv zeta. rewrite entries_empty by lia. cbn [replay fst snd writes fold_left].
    repeat split; auto.
    + apply (b_nd _ _ _ _ B).
    + intro t. rewrite PM. unfold view. destruct (mem_nat t _) eqn:Q; [|reflexivity].
      apply mem_nat_In in Q. rewrite (BF t Q) by lia. reflexivity.
    + intro t. rewrite PE. unfold view. destruct (mem_nat t _) eqn:Q; [|reflexivity].
      apply mem_nat_In in Q. rewrite (BF t Q) by lia. reflexivity.
  - specialize (IH ltac:(lia) ltac:(lia)). cbv zeta in IH |- *.
    rewrite entries_snoc by lia.
    destruct (entry_at_some log (S j) ltac:(lia)) as [e Ee].
    pose proof (mean_S _ _ _ Ee) as MS.
    set (l0 := entries_of log (map fst (d_log d1)) lo j) in *.
    unfold wanted. rewrite Ee.
    assert (SKIP : forall t0, txn_of e = Some t0 \/ txn_of e = None ->
      (txn_of e = Some t0 -> mem_nat t0 (map fst (d_log d1)) = false) ->
      forall t, view (map fst (d_log d1)) (mean log (S j)) t = view (map fst (d_log d1)) (mean log j) t).
    { intros t0 A C t. unfold view. destruct (mem_nat t _) eqn:Q; [|reflexivity].
      rewrite MS. apply open_other. intro R. destruct A as [A|A]; [|congruence].
      assert (t = t0) by congruence. subst. rewrite C in Q; congruence. }
    destruct (txn_of e) as [t|] eqn:T.
    2:{ rewrite app_nil_r. destruct IH as (I1&I2&I3&I4&I5&I6&I7&I8). repeat split; auto.
        - intro x. rewrite I7. symmetry. apply (SKIP 0); [right; reflexivity|congruence].
        - intro x. rewrite I8. f_equal. symmetry. apply (SKIP 0); [right; reflexivity|congruence]. }
    destruct (mem_nat t (map fst (d_log d1))) eqn:TI.
    2:{ rewrite app_nil_r. destruct IH as (I1&I2&I3&I4&I5&I6&I7&I8). repeat split; auto.
        - intro x. rewrite I7. symmetry. apply (SKIP t); [left; reflexivity|auto].
        - intro x. rewrite I8. f_equal. symmetry. apply (SKIP t); [left; reflexivity|auto]. }
    clear SKIP. rewrite replay_snoc. cbn [fst snd m_idx m_pool]. rewrite writes_app.
    set (r0 := replay l0 m0) in *. destruct IH as (I1&I2&I3&I4&I5&I6&I7&I8).
    set (d0 := writes d1 (fst r0)) in *. set (m1 := snd r0) in *.
    assert (AE : apply_entry true (S j) e m1 =
      (let '(ws, o, k) := exec_txn true (S j) (m_lines m1) e (m_pool m1 t) in
       (ws, mkMem (S j) k (upd (m_pool m1) t o)))).
    { destruct e; cbn [txn_of] in T; try discriminate; injection T as ->; reflexivity. }
    rewrite AE. clear AE.
    destruct (exec_txn true (S j) (m_lines m1) e (m_pool m1 t)) as [[ws o'] k'] eqn:EXE.
    destruct (exec_spec _ _ _ _ _ _ _ _ _ T EXE) as [A1 SH]. clear EXE.
    pose proof (I7 t) as I7t. unfold view in I7t. rewrite TI in I7t.
    rewrite I7t in A1, SH. cbn [fst snd m_pool].
    pose proof (shape_about _ _ _ _ _ _ SH) as AB.
    assert (OT : sp_open (mean log (S j)) t =
      match fate_of e (sp_open (mean log j) t) with Stays x => x | _ => None end).
    { rewrite MS. apply open_own, T. }
    assert (VO : forall x, x <> t -> view (map fst (d_log d1)) (mean log (S j)) x =
                                     view (map fst (d_log d1)) (mean log j) x).
    { intros x NE. unfold view. destruct (mem_nat x _); [|reflexivity]. rewrite MS. apply open_other. congruence. }
    assert (VT : view (map fst (d_log d1)) (mean log (S j)) t = sp_open (mean log (S j)) t).
    { unfold view. rewrite TI. reflexivity. }
    assert (GOAL :
      d_data (writes d0 ws) = d_data d0 -> d_tag (writes d0 ws) = d_tag d0 -> d_pre (writes d0 ws) = d_pre d0 ->
      lookup t (d_log (writes d0 ws)) = lookup t (d_log d0) ->
      lookup t (d_prep (writes d0 ws)) = prep_view (sp_open (mean log (S j)) t) ->
      d_data (writes d0 ws) = d_data d1 /\ d_tag (writes d0 ws) = d_tag d1 /\ d_pre (writes d0 ws) = d_pre d1 /\
      NoDup (map fst (d_log (writes d0 ws))) /\
      (forall t, lookup t (d_log (writes d0 ws)) = lookup t (d_log d1)) /\
      m_idx m1 = m_idx m0 /\
      (forall x, option_map abs (upd (m_pool m1) t o' x) = view (map fst (d_log d1)) (mean log (S j)) x) /\
      (forall t, lookup t (d_prep (writes d0 ws)) = prep_view (view (map fst (d_log d1)) (mean log (S j)) t))).
    { intros G1 G2 G3 G4 G5. repeat split; try congruence.
      - apply (about_nd t); auto.
      - intro x. destruct (Nat.eq_dec x t) as [->|NE]; [congruence|].
        destruct (about_other t ws d0 x AB NE) as [Q _]. rewrite Q. auto.
      - intro x. destruct (Nat.eq_dec x t) as [->|NE].
        + rewrite upd_same, VT, OT. exact A1.
        + rewrite upd_other, VO; auto.
      - intro x. destruct (Nat.eq_dec x t) as [->|NE]; [rewrite VT; auto|].
        destruct (about_other t ws d0 x AB NE) as [_ [_ Q]]. rewrite Q, VO; auto. }
    pose proof (prepb_abs _ _ I7t) as PB.
    pose proof (I8 t) as I8t. unfold view in I8t. rewrite TI in I8t.
    assert (NOOP : sp_open (mean log j) t = None -> fate_of e None = Stays None ->
       d_data (writes d0 ws) = d_data d0 /\ d_tag (writes d0 ws) = d_tag d0 /\ d_pre (writes d0 ws) = d_pre d0 /\
       lookup t (d_log (writes d0 ws)) = lookup t (d_log d0) /\
       lookup t (d_prep (writes d0 ws)) = prep_view (sp_open (mean log (S j)) t)).
    { intros N0 F0. rewrite N0 in *. rewrite F0 in *. cbn [shape] in SH. destruct SH as [_ ->].
      cbn [writes fold_left]. repeat split; auto. rewrite I8t, OT. reflexivity. }
    destruct (DEC t) as [X|X].
    + assert (N0 : sp_open (mean log j) t = None) by (apply (never_before log t (S n) j PL (EX t X)); lia).
      assert (F0 : fate_of e None = Stays None).
      { apply (noop_before log t (S n) j e PL (EX t X)); auto. lia. }
      destruct (NOOP N0 F0) as (?&?&?&?&?). apply GOAL; auto.
    + apply mem_nat_In, keys_lookup in TI.
      destruct (lookup t (d_log d1)) as [f|] eqn:F; [|congruence]. clear TI.
      pose proof (base_brings _ _ _ _ _ _ NL B X F) as BR.
      destruct (b_log _ _ _ _ B t f X F) as [OA1 [OA2 OA3]].
      destruct (Nat.lt_ge_cases (S j) f) as [LT|GE].
      * assert (N0 : sp_open (mean log j) t = None) by (apply (never_before log t f j PL BR); lia).
        assert (F0 : fate_of e None = Stays None) by (apply (noop_before log t f j e PL BR); auto).
        destruct (NOOP N0 F0) as (?&?&?&?&?). apply GOAL; auto.
      * assert (ON : sp_open (mean log (S j)) t <> None) by (apply OA3; lia).
        destruct (fate_of e (sp_open (mean log j) t)) as [[y|]|b|rb] eqn:FT;
          try (exfalso; apply ON; rewrite OT; reflexivity).
        cbn [shape] in SH. clear NOOP.
        assert (YP : forall x, sp_open (mean log j) t = Some x -> o_prep x = true -> y = x).
        { intros x E1 E2. rewrite E1 in FT. destruct PL as [_ P2].
          apply (stays_prepared e x y E2 FT), (P2 j e t x); auto. }
        subst ws. apply GOAL; clear GOAL;
          try (destruct (m_pool m1 t); cbn [begin_writes]; destruct (_ && _); reflexivity).
        -- destruct (m_pool m1 t) as [p|] eqn:PT; cbn [begin_writes app].
           ++ destruct (_ && _); reflexivity.
           ++ cbn in I7t.
              assert (j < f). { destruct (Nat.lt_ge_cases j f); [auto|]. exfalso. apply (OA3 j); [lia|congruence]. }
              assert (f = S j) by lia. subst f. rewrite I5, F.
              destruct (_ && _); cbn [writes fold_left write d_log]; rewrite lookup_store, Nat.eqb_refl; reflexivity.
        -- rewrite OT. cbn [prep_view]. rewrite PB.
           destruct (sp_open (mean log j) t) as [x|] eqn:ST.
           ++ destruct (m_pool m1 t) as [p|] eqn:PT; [|discriminate].
              cbn [begin_writes app].
              destruct (o_prep x) eqn:PX.
              ** rewrite (YP x eq_refl PX) in *. rewrite PX. cbn [andb negb writes fold_left].
                 fold (writes d0 []). cbn [writes fold_left]. rewrite I8t. cbn. rewrite PX. reflexivity.
              ** rewrite Bool.andb_true_r. destruct (o_prep y) eqn:PY.
                 --- cbn [writes fold_left write d_prep]. rewrite lookup_store, Nat.eqb_refl. reflexivity.
                 --- cbn [writes fold_left]. rewrite I8t. cbn. rewrite PX. reflexivity.
           ++ destruct (m_pool m1 t) as [p|] eqn:PT; [discriminate|].
              cbn [begin_writes app negb]. rewrite Bool.andb_true_r. destruct (o_prep y).
              ** cbn [writes fold_left write d_prep]. rewrite lookup_store, Nat.eqb_refl. reflexivity.
              ** cbn [writes fold_left write d_prep]. rewrite I8t. reflexivity.
Qed.

(** ** The state of a store *)

Definition same (a b : meaning W) : Prop :=
  sp_data a = sp_data b /\ sp_rolled a = sp_rolled b /\ sp_tag a = sp_tag b /\
  forall t, sp_open a t = None <-> sp_open b t = None.

Definition idxok log d (n : nat) : Prop :=
  d_idx d <= n /\ (forall j, d_idx d <= j <= n -> same (mean log j) (mean log n)) /\
  forall t f, lookup t (d_log d) = Some f -> f <= d_idx d.

Definition preprep d (ex : nat -> Prop) : Prop :=
  forall t, ~ ex t -> lookup t (d_pre d) <> None -> In t (map fst (d_prep d)).

Definition up_inv log d m pos : Prop :=
  core log d (m_pool m) (max pos (m_idx m)) none /\ idxok log d (max pos (m_idx m)) /\
  d_idx d <= m_idx m /\ max pos (m_idx m) <= length log.

Definition down_quiet log d pos : Prop :=
  exists n, pos <= n <= length log /\ base log d n none /\ idxok log d n /\ preprep d none.

Definition down_begun log d pos : Prop :=
  exists t e, entry_at log (S pos) = Some e /\ txn_of e = Some t /\
    sp_open (mean log pos) t = None /\ fate_of e None <> Stays None /\
    base log d pos (eq t) /\ lookup t (d_log d) = Some (S pos) /\ d_idx d = S pos /\
    preprep d none /\
    (forall y, fate_of e None = Stays (Some y) -> lookup t (d_pre d) = None).

Definition is_roll e : bool := match e with ERoll _ _ _ _ => true | _ => false end.
Definition is_end e : bool := match e with ERoll _ _ _ _ | ECommit _ _ => true | _ => false end.

Definition down_ended log d pos : Prop :=
  exists t e nl, entry_at log (S pos) = Some e /\ is_end e = true /\
    lookup t (d_pre d) = Some (nl, S pos) /\ ~ In t (map fst (d_prep d)) /\
    preprep d (eq t) /\ lookup t (d_log d) <> None /\ d_idx d <= S pos /\ NoDup (map fst (d_log d)) /\
    base log (write d (WAfter t nl (S pos) (is_roll e))) (S pos) none.

Definition down_cleared log d pos : Prop :=
  exists t e nl, entry_at log (S pos) = Some e /\ is_end e = false /\
    lookup t (d_pre d) = Some (nl, S pos) /\ ~ In t (map fst (d_prep d)) /\
    preprep d (eq t) /\ lookup t (d_log d) <> None /\ d_idx d = S pos /\ NoDup (map fst (d_log d)) /\
    base log (write d (WClear t)) (S pos) none.

Definition inv log (x : node W) : Prop :=
  match x with
  | Up d m pos => up_inv log d m pos
  | Down d pos =>
      down_quiet log d pos \/ down_begun log d pos \/ down_ended log d pos \/ down_cleared log d pos
  end.

(** ** Restart *)

Lemma rollbacks : forall l d, let d0 := writes d (map WRollback l) in
  d_data d0 = d_data d /\ d_lines d0 = d_lines d /\ d_idx d0 = d_idx d /\ d_pre d0 = d_pre d /\
  d_log d0 = d_log d /\ d_tag d0 = d_tag d /\
  forall t, lookup t (d_prep d0) = if mem_nat t l then None else lookup t (d_prep d).
Proof.
  induction l as [|x l IH]; intro d; cbv zeta; cbn [map writes fold_left].
  - repeat split.
  - change (fold_left write (map WRollback l) (write d (WRollback x)))
      with (writes (write d (WRollback x)) (map WRollback l)).
    destruct (IH (write d (WRollback x))) as (A1&A2&A3&A4&A5&A6&A7).
    rewrite A1, A2, A3, A4, A5, A6. repeat split.
    intro t. rewrite A7. cbn [write d_prep]. rewrite lookup_remove.
    cbn [mem_nat existsb]. unfold mem_nat. destruct (t =? x), (existsb (Nat.eqb t) l); reflexivity.
Qed.

Lemma settle_keep : forall log first prepared d l idx,
  (forall t f, In (t, f) l -> lookup t (d_pre d) <> None -> In t prepared) ->
  settle_all log first prepared d idx l = ([], idx, l).
Proof.
  induction l as [|[t f] l IH]; intros idx Q; cbn [settle_all]; [reflexivity|].
  unfold settle. specialize (Q t f (or_introl eq_refl)) as Qt.
  destruct (lookup t (d_pre d)) as [[n i]|] eqn:E.
  - assert (M : mem_nat t prepared = true) by (apply mem_nat_In, Qt; discriminate).
    rewrite M. rewrite IH; [reflexivity|]. intros t' f' I'. apply (Q t' f'). right. exact I'.
  - rewrite IH; [reflexivity|]. intros t' f' I'. apply (Q t' f'). right. exact I'.
Qed.

Lemma remove_absent : forall (A : Type) k (l : list (nat * A)), ~ In k (map fst l) -> remove k l = l.
Proof.
  induction l as [|[y b] l IH]; cbn; intro N; [reflexivity|].
  destruct (y =? k) eqn:E; [apply Nat.eqb_eq in E; tauto|]. cbn. f_equal. apply IH. tauto.
Qed.

Lemma settle_one : forall log first prepared d t nl i e l idx,
  NoDup (map fst l) -> In t (map fst l) -> idx <= i -> first <= i ->
  (forall x f, In (x, f) l -> x <> t -> lookup x (d_pre d) <> None -> In x prepared) ->
  lookup t (d_pre d) = Some (nl, i) -> ~ In t prepared ->
  entry_at log i = Some e -> is_end e = true ->
  settle_all log first prepared d idx l = ([WAfter t nl i (is_roll e); WClear t], i, remove t l).
Proof.
  intros log first prepared d t nl i e l.
  induction l as [|[x f] l IH]; intros idx ND IN LE FI KEEP PRE NP Ee EN; cbn [map In] in IN; [contradiction|].
  cbn [map] in ND. inversion ND as [|? ? N1 N2]; subst. cbn [fst] in *.
  cbn [settle_all]. destruct (Nat.eq_dec x t) as [->|NE].
  - unfold settle at 1. rewrite PRE.
    assert (M : mem_nat t prepared = false).
    { destruct (mem_nat t prepared) eqn:M; [apply mem_nat_In in M; tauto|reflexivity]. }
    rewrite M. replace (i <? idx) with false by (symmetry; apply Nat.ltb_ge; lia).
    replace (first <=? i) with true by (symmetry; apply Nat.leb_le; lia). rewrite Ee.
    assert (K : settle_all log first prepared d (max idx i) l = ([], max idx i, l)).
    { apply settle_keep. intros y g I' Q. apply (KEEP y g); auto; [right; auto|].
      intros ->. apply N1. change t with (fst (t, g)). apply in_map, I'. }
    replace (max idx i) with i in * by lia.
    cbn [remove filter fst]. rewrite Nat.eqb_refl. cbn [negb]. fold (remove t l).
    rewrite remove_absent by auto.
    destruct e; cbn [is_end is_roll] in *; try discriminate; rewrite K; reflexivity.
  - assert (ST : settle log first prepared d idx x = ([], idx, true)).
    { unfold settle. destruct (lookup x (d_pre d)) as [[n' i']|] eqn:E; [|reflexivity].
      assert (M : mem_nat x prepared = true).
      { apply mem_nat_In, (KEEP x f); [left; reflexivity|auto|congruence]. }
      rewrite M. reflexivity. }
    rewrite ST, IH; auto.
    + cbn [remove filter fst]. apply Nat.eqb_neq in NE. rewrite NE. cbn [negb]. reflexivity.
    + destruct IN as [IN|IN]; [congruence|auto].
    + intros y g I'. apply (KEEP y g). right. exact I'.
Qed.

Lemma settle_clear : forall log first prepared d t nl i e l idx,
  NoDup (map fst l) -> In t (map fst l) -> idx <= i -> first <= i ->
  (forall x f, In (x, f) l -> x <> t -> lookup x (d_pre d) <> None -> In x prepared) ->
  lookup t (d_pre d) = Some (nl, i) -> ~ In t prepared ->
  entry_at log i = Some e -> is_end e = false ->
  settle_all log first prepared d idx l = ([WClear t], idx, remove t l).
Proof.
  intros log first prepared d t nl i e l.
  induction l as [|[x f] l IH]; intros idx ND IN LE FI KEEP PRE NP Ee EN; cbn [map In] in IN; [contradiction|].
  cbn [map] in ND. inversion ND as [|? ? N1 N2]; subst. cbn [fst] in *.
  cbn [settle_all]. destruct (Nat.eq_dec x t) as [->|NE].
  - unfold settle at 1. rewrite PRE.
    assert (M : mem_nat t prepared = false).
    { destruct (mem_nat t prepared) eqn:M; [apply mem_nat_In in M; tauto|reflexivity]. }
    rewrite M. replace (i <? idx) with false by (symmetry; apply Nat.ltb_ge; lia).
    replace (first <=? i) with true by (symmetry; apply Nat.leb_le; lia). rewrite Ee.
    assert (K : settle_all log first prepared d idx l = ([], idx, l)).
    { apply settle_keep. intros y g I' Q. apply (KEEP y g); auto; [right; auto|].
      intros ->. apply N1. change t with (fst (t, g)). apply in_map, I'. }
    cbn [remove filter fst]. rewrite Nat.eqb_refl. cbn [negb]. fold (remove t l).
    rewrite remove_absent by auto.
    destruct e; cbn [is_end is_roll] in *; try discriminate; rewrite K; reflexivity.
  - assert (ST : settle log first prepared d idx x = ([], idx, true)).
    { unfold settle. destruct (lookup x (d_pre d)) as [[n' i']|] eqn:E; [|reflexivity].
      assert (M : mem_nat x prepared = true).
      { apply mem_nat_In, (KEEP x f); [left; reflexivity|auto|congruence]. }
      rewrite M. reflexivity. }
    rewrite ST, IH; auto.
    + cbn [remove filter fst]. apply Nat.eqb_neq in NE. rewrite NE. cbn [negb]. reflexivity.
    + destruct IN as [IN|IN]; [congruence|auto].
    + intros y g I'. apply (KEEP y g). right. exact I'.
Qed.

Lemma low_le : forall l hi, low l hi <= hi.
Proof. unfold low. induction l as [|[t f] l IH]; intro hi; cbn; [lia|]. specialize (IH hi). lia. Qed.

Lemma low_in : forall l hi t f, In (t, f) l -> low l hi <= f.
Proof.
  unfold low. induction l as [|[x g] l IH]; intros hi t f Q; cbn in *; [contradiction|].
  destruct Q as [Q|Q]; [injection Q as -> ->; lia|]. specialize (IH hi t f Q). lia.
Qed.

Lemma low_ge : forall l hi b, b <= hi -> (forall t f, In (t, f) l -> b <= f) -> b <= low l hi.
Proof.
  unfold low. induction l as [|[x g] l IH]; intros hi b B Q; cbn; [lia|].
  assert (b <= g) by (apply (Q x g); left; reflexivity).
  assert (b <= fold_right (fun (p : nat * nat) a => min (snd p) a) hi l) by (apply IH; [auto|intros; apply (Q t f); right; auto]).
  lia.
Qed.

Lemma entries_noids : forall log lo hi, entries_of log [] lo hi = [].
Proof.
  intros. unfold entries_of. induction (seq lo (S hi - lo)) as [|i l IH]; [reflexivity|].
  cbn [flat_map]. rewrite IH, app_nil_r. unfold wanted. destruct (entry_at log i); [|reflexivity].
  destruct (txn_of e); reflexivity.
Qed.

Definition es_of log first (open : list (nat * nat)) hi : list (nat * entry W) :=
  match map fst open with
  | [] => []
  | _ => if hi <? low open (S hi) then []
         else entries_of log (map fst open) (max first (low open (S hi))) hi
  end.

Lemma es_eq : forall log first open hi,
  (forall t f, In (t, f) open -> first <= f) ->
  es_of log first open hi = entries_of log (map fst open) (low open (S hi)) hi.
Proof.
  intros log first open hi F. unfold es_of.
  destruct open as [|[t f] open]; [symmetry; apply entries_noids|].
  cbn [map]. destruct (hi <? low _ _) eqn:E.
  - apply Nat.ltb_lt in E. symmetry. apply entries_empty. exact E.
  - apply Nat.ltb_ge in E. f_equal.
    apply Nat.max_r. destruct (Nat.le_gt_cases first (S hi)) as [L|L].
    + apply low_ge; auto.
    + exfalso. pose proof (F t f (or_introl eq_refl)).
      assert (forall l b, (forall t f, In (t, f) l -> S hi < f) -> b = S hi -> low l b = S hi) as AUX.
      { unfold low. induction l as [|[x g] l IH]; intros b Q ->; cbn; [reflexivity|].
        rewrite IH; auto; [|intros; apply (Q t0 f0); right; auto].
        assert (S hi < g) by (apply (Q x g); left; reflexivity). lia. }
      rewrite AUX in E; [lia| |reflexivity].
      intros t' f' I'. pose proof (F t' f' I'). lia.
Qed.

Definition after_settle log snap first (d1 : disk W) (open : list (nat * nat)) idx : list (dwrite W) * mem W :=
  let es := es_of log first open (max snap idx) in
  let '(w2, m2) := replay es (mkMem (d_idx d1) (d_lines d1) (fun _ => None)) in
  (w2 ++ match es with [] => [] | _ => [WIdx (d_idx d1)] end, m2).

Lemma boot_eq : forall log snap first d,
  boot log snap first d =
  (let w0 := map WRollback (map fst (d_prep d)) in
   let d0 := writes d w0 in
   let '(w1, idx, open) := settle_all log first (map fst (d_prep d)) d0 (d_idx d0) (d_log d0) in
   let '(w2, m2) := after_settle log snap first (writes d0 w1) open idx in
   (w0 ++ w1 ++ w2, m2)).
Proof.
  intros. unfold boot, after_settle, es_of. cbv zeta.
  destruct (settle_all _ _ _ _ _ _) as [[w1 idx] open].
  destruct (replay _ _) as [w2 m2]. reflexivity.
Qed.

Lemma base_quiet : forall log d n n', n' <= n -> d_idx d <= n' -> base log d n none -> idxok log d n ->
  base log d n' none /\ idxok log d n'.
Proof.
  intros log d n n' L1 L2 B (Q1 & Q2 & Q3).
  destruct (Q2 n' ltac:(lia)) as (S1 & S2 & S3 & S4).
  destruct B as [B1 B2 B3 B4 B5 B6 B7].
  split; [constructor|split; [lia|split]]; auto.
  - congruence.
  - rewrite S2. auto.
  - rewrite S3. auto.
  - intros t f X L. destruct (B5 t f X L) as [A [B C]]. specialize (Q3 t f L).
    split; [lia|]. split; [auto|]. intros j J. apply C. lia.
  - intros t Q. apply B6. intro R. apply Q. apply S4, R.
  - intros t X Q R. apply (B7 t X Q). apply S4, R.
  - intros j J. destruct (Q2 j ltac:(lia)) as (T1 & T2 & T3 & T4).
    repeat split; try congruence; intro R.
    + apply S4, T4, R.
    + apply T4, S4, R.
Qed.

Lemma finish_quiet : forall log snap first d1 n,
  proper log -> n <= length log -> base log d1 n none -> idxok log d1 n ->
  (forall t, lookup t (d_prep d1) = None) -> n = max snap (d_idx d1) ->
  (forall t f, In (t, f) (d_log d1) -> first <= f) ->
  let r := after_settle log snap first d1 (d_log d1) (d_idx d1) in
  up_inv log (writes d1 (fst r)) (snd r) snap.
Proof.
  intros log snap first d1 n PL NL B IX PE EN FI. cbv zeta. unfold after_settle.
  rewrite <- EN, es_eq by auto.
  set (lo := low (d_log d1) (S n)). set (m0 := mkMem (d_idx d1) (d_lines d1) (fun _ => None)).
  assert (LO : 1 <= lo).
  { apply low_ge; [lia|]. intros t f Q. apply In_lookup in Q; [|apply (b_nd _ _ _ _ B)].
    destruct (b_log _ _ _ _ B t f (fun x => x) Q) as [? _]. lia. }
  pose proof (replay_run log d1 n none lo m0 PL NL B PE (fun _ => or_intror (fun x => x))
    (fun _ (x : none _) => match x with end) LO (low_le _ _)) as RR.
  specialize (RR (fun t f Q => low_in _ _ t f (lookup_In _ _ _ _ Q)) (fun _ => eq_refl) n).
  pose proof (low_le (d_log d1) (S n)) as LL. fold lo in LL. specialize (RR ltac:(lia)). cbv zeta in RR.
  set (es := entries_of log (map fst (d_log d1)) lo n) in *.
  destruct (replay es m0) as [w2 m2] eqn:RE. cbn [fst snd] in RR |- *.
  destruct RR as (R1 & R2 & R3 & R4 & R5 & R6 & R7 & R8).
  assert (VW : forall t, view (map fst (d_log d1)) (mean log n) t = sp_open (mean log n) t).
  { intro t. unfold view. destruct (mem_nat t (map fst (d_log d1))) eqn:M; [reflexivity|].
    destruct (sp_open (mean log n) t) eqn:O; [|reflexivity]. exfalso.
    assert (lookup t (d_log d1) <> None) by (apply (b_log' _ _ _ _ B); congruence).
    apply keys_lookup, mem_nat_In in H. congruence. }
  set (w3 := match es with [] => [] | _ => [WIdx (d_idx d1)] end).
  assert (W3 : forall d, d_data (writes d w3) = d_data d /\ d_tag (writes d w3) = d_tag d /\
     d_pre (writes d w3) = d_pre d /\ d_log (writes d w3) = d_log d /\ d_prep (writes d w3) = d_prep d).
  { intro d. unfold w3. destruct es; cbn; auto. }
  assert (DI : d_idx (writes (writes d1 w2) w3) = d_idx d1).
  { unfold w3. destruct es as [|x es']; [|reflexivity]. cbn in RE. injection RE as <- <-. reflexivity. }
  rewrite writes_app. destruct (W3 (writes d1 w2)) as (V1 & V2 & V3 & V4 & V5).
  destruct B as [B1 B2 B3 B4 B5 B6 B7]. destruct IX as (X1 & X2 & X3).
  unfold up_inv. rewrite R6. cbn [m_idx m0]. rewrite <- EN. rewrite DI.
  split; [|split; [|split; [lia|auto]]].
  - constructor; [constructor|..].
    + congruence.
    + rewrite V2, R2. auto.
    + rewrite V2, R2. auto.
    + rewrite V4. auto.
    + intros t f X L. rewrite V4, R5 in L. auto.
    + intros t Q. rewrite V4, R5. auto.
    + intros t X Q. rewrite V3, R3 in Q. auto.
    + intro t. rewrite R7. apply VW.
    + intro t. rewrite V5, R8, VW. reflexivity.
  - split; [rewrite DI; auto|]. split; [rewrite DI; auto|].
    intros t f L. rewrite V4, R5 in L. rewrite DI. eauto.
Qed.

Lemma finish_begun : forall log snap first d1 pos t e,
  proper log -> S pos <= length log -> snap <= pos ->
  entry_at log (S pos) = Some e -> txn_of e = Some t ->
  sp_open (mean log pos) t = None -> fate_of e None <> Stays None ->
  base log d1 pos (eq t) -> lookup t (d_log d1) = Some (S pos) -> d_idx d1 = S pos ->
  (forall x, lookup x (d_prep d1) = None) ->
  (forall y, fate_of e None = Stays (Some y) -> lookup t (d_pre d1) = None) ->
  (forall x f, In (x, f) (d_log d1) -> first <= f) ->
  let r := after_settle log snap first d1 (d_log d1) (d_idx d1) in
  up_inv log (writes d1 (fst r)) (snd r) snap.
Proof.
  intros log snap first d1 pos t e PL NL SN Ee T ON FT B LT DI PE PR FI. cbv zeta. unfold after_settle.
  replace (max snap (d_idx d1)) with (S pos) by lia. rewrite es_eq by auto.
  set (lo := low (d_log d1) (S (S pos))). set (m0 := mkMem (d_idx d1) (d_lines d1) (fun _ => None)).
  assert (LO2 : lo <= S pos) by (apply (low_in _ _ t), lookup_In, LT).
  assert (DEC : forall x, t = x \/ t <> x) by (intro x; destruct (Nat.eq_dec t x); auto).
  assert (LO : 1 <= lo).
  { apply low_ge; [lia|]. intros x f Q. apply In_lookup in Q; [|apply (b_nd _ _ _ _ B)].
    destruct (DEC x) as [<-|N].
    - rewrite LT in Q. injection Q as <-. lia.
    - destruct (b_log _ _ _ _ B x f N Q) as [? _]. lia. }
  assert (BR : forall x, t = x -> brings log x (S pos)).
  { intros x <-. split; [lia|]. split; [replace (S pos - 1) with pos by lia; auto|].
    exists e. auto. }
  pose proof (replay_run log d1 pos (eq t) lo m0 PL ltac:(lia) B PE DEC BR LO LO2
    (fun x f Q => low_in _ _ x f (lookup_In _ _ _ _ Q)) (fun _ => eq_refl) pos ltac:(lia)) as RR.
  cbv zeta in RR. rewrite entries_snoc by auto.
  assert (TI : mem_nat t (map fst (d_log d1)) = true).
  { apply mem_nat_In, keys_lookup. congruence. }
  unfold wanted. rewrite Ee, T, TI. rewrite replay_snoc.
  set (r0 := replay (entries_of log (map fst (d_log d1)) lo pos) m0) in *.
  destruct RR as (R1 & R2 & R3 & R4 & R5 & R6 & R7 & R8).
  assert (VW : forall x, view (map fst (d_log d1)) (mean log pos) x = sp_open (mean log pos) x).
  { intro x. unfold view. destruct (mem_nat x (map fst (d_log d1))) eqn:M; [reflexivity|].
    destruct (sp_open (mean log pos) x) eqn:O; [|reflexivity]. exfalso.
    assert (lookup x (d_log d1) <> None) by (apply (b_log' _ _ _ _ B); congruence).
    apply keys_lookup, mem_nat_In in H. congruence. }
  assert (C0 : core log (writes d1 (fst r0)) (m_pool (snd r0)) pos (eq t)).
  { destruct B as [B1 B2 B3 B4 B5 B6 B7]. constructor; [constructor|..].
    - congruence.
    - rewrite R2. auto.
    - rewrite R2. auto.
    - auto.
    - intros x f X L. rewrite R5 in L. auto.
    - intros x Q. rewrite R5. auto.
    - intros x X Q. rewrite R3 in Q. auto.
    - intro x. rewrite R7. apply VW.
    - intro x. rewrite R8, VW. reflexivity. }
  pose proof (step_core true log (writes d1 (fst r0)) (snd r0) pos e (eq t) PL Ee C0) as C1.
  assert (EXH : forall x, t = x -> txn_of e = Some x /\ sp_open (mean log pos) x = None /\
     fate_of e None <> Stays None /\
     (forall y, fate_of e None = Stays (Some y) -> lookup x (d_pre (writes d1 (fst r0))) = None)).
  { intros x <-. split; [auto|]. split; [auto|]. split; [auto|]. intros y Q. rewrite R3. eauto. }
  specialize (C1 EXH).
  set (a := apply_entry true (S pos) e (snd r0)) in *.
  assert (NE : match entries_of log (map fst (d_log d1)) lo pos ++ [(S pos, e)] with
               | [] => [] | _ => [WIdx (d_idx d1)] end = [WIdx (W:=W) (d_idx d1)]).
  { destruct (entries_of _ _ _ _); reflexivity. }
  rewrite NE. cbn [fst snd]. rewrite !writes_app.
  set (d2 := writes (writes d1 (fst r0)) (fst a)) in *.
  assert (DL : forall x f, lookup x (d_log d2) = Some f -> f <= S pos).
  { intros x f L. destruct C1 as [B1 _ _]. destruct (b_log _ _ _ _ B1 x f (fun z => z) L) as [? _]. lia. }
  unfold up_inv. cbn [m_idx m_pool]. rewrite R6. cbn [m_idx m0]. rewrite DI.
  replace (max snap (S pos)) with (S pos) by lia.
  split; [|split; [|split; [cbn; lia|auto]]].
  - destruct C1 as [[B1 B2 B3 B4 B5 B6 B7] C2 C3].
    constructor; [constructor|..]; auto.
  - split; [cbn; lia|]. split; [|auto].
    cbn [writes fold_left write d_idx]. intros j J. replace j with (S pos) by lia.
    repeat split; auto.
Qed.

Lemma remove_idem : forall (A : Type) k (l : list (nat * A)), remove k (remove k l) = remove k l.
Proof.
  intros. apply remove_absent. intro Q. apply keys_remove in Q. tauto.
Qed.

Lemma start_inv : forall log snap first d pos,
  proper log -> inv log (Down d pos) -> snap <= pos -> first <= S snap ->
  (forall t f, In (t, f) (d_log d) -> first <= f) ->
  up_inv log (writes d (fst (boot log snap first d))) (snd (boot log snap first d)) snap.
Proof.
  intros log snap first d pos PL IV SN FS FI. rewrite boot_eq. cbv zeta.
  destruct (rollbacks (map fst (d_prep d)) d) as (A1&A2&A3&A4&A5&A6&A7).
  set (d0 := writes d (map WRollback (map fst (d_prep d)))) in *.
  assert (PE : forall t, lookup t (d_prep d0) = None).
  { intro t. rewrite A7. destruct (mem_nat t _) eqn:M; [reflexivity|].
    destruct (lookup t (d_prep d)) eqn:L; [|reflexivity]. exfalso.
    assert (In t (map fst (d_prep d))) by (apply keys_lookup; congruence).
    apply mem_nat_In in H. congruence. }
  assert (BT : forall n ex, base log d n ex -> base log d0 n ex).
  { intros n ex [B1 B2 B3 B4 B5 B6 B7]. constructor; try rewrite A1; try rewrite A6; try rewrite A5; auto.
    rewrite A4. auto. }
  cbn [inv] in IV. destruct IV as [IV|[IV|[IV|IV]]].
  - destruct IV as (n & NN & B & IX & PP).
    assert (SK : settle_all log first (map fst (d_prep d)) d0 (d_idx d0) (d_log d0) = ([], d_idx d0, d_log d0)).
    { apply settle_keep. intros t f _ Q. rewrite A4 in Q. apply PP; auto. }
    rewrite SK. cbn [writes fold_left app].
    assert (IX0 : idxok log d0 n) by (unfold idxok in *; rewrite A3, A5; exact IX).
    destruct IX as (X1 & X2 & X3).
    destruct (base_quiet log d0 n (max snap (d_idx d0)) ltac:(rewrite A3; lia) ltac:(lia) (BT _ _ B) IX0) as [B' IX'].
    pose proof (finish_quiet log snap first d0 (max snap (d_idx d0)) PL ltac:(rewrite A3; lia) B' IX' PE eq_refl) as FQ.
    assert (FI0 : forall t f, In (t, f) (d_log d0) -> first <= f) by (rewrite A5; exact FI).
    specialize (FQ FI0). cbv zeta in FQ.
    destruct (after_settle log snap first d0 (d_log d0) (d_idx d0)) as [w2 m2]. cbn [fst snd] in *.
    rewrite writes_app. exact FQ.
  - destruct IV as (t & e & Ee & T & ON & FT & B & LT & DI & PP & PR).
    assert (SK : settle_all log first (map fst (d_prep d)) d0 (d_idx d0) (d_log d0) = ([], d_idx d0, d_log d0)).
    { apply settle_keep. intros x f _ Q. rewrite A4 in Q. apply PP; auto. }
    rewrite SK. cbn [writes fold_left app].
    pose proof (entry_at_bound _ _ _ Ee) as BD.
    pose proof (finish_begun log snap first d0 pos t e PL ltac:(lia) SN Ee T ON FT (BT _ _ B)) as FB.
    rewrite A5, A4, A3 in FB. specialize (FB LT DI PE PR FI). cbv zeta in FB.
    rewrite A5, A3.
    destruct (after_settle log snap first d0 (d_log d) (d_idx d)) as [w2 m2]. cbn [fst snd] in *.
    rewrite writes_app. exact FB.
  - destruct IV as (t & e & nl & Ee & EN & LP & NP & PP & LT & DI & ND & B).
    pose proof (entry_at_bound _ _ _ Ee) as BD.
    assert (SK : settle_all log first (map fst (d_prep d)) d0 (d_idx d0) (d_log d0)
      = ([WAfter t nl (S pos) (is_roll e); WClear t], S pos, remove t (d_log d))).
    { rewrite A3, A5. apply settle_one; auto; try lia.
      - apply keys_lookup, LT.
      - intros x f _ NE Q. rewrite A4 in Q. apply PP; auto.
      - rewrite A4. auto. }
    rewrite SK.
    set (d1 := writes d0 [WAfter t nl (S pos) (is_roll e); WClear t]).
    assert (E1 : d_data d1 = d_data d) by exact A1.
    assert (E2 : d_tag d1 = d_tag (write d (WAfter t nl (S pos) (is_roll e)))).
    { cbn. rewrite A6. reflexivity. }
    assert (E3 : d_log d1 = remove t (d_log d)).
    { cbn. rewrite A5. apply remove_idem. }
    assert (E4 : d_pre d1 = remove t (d_pre d)).
    { cbn. rewrite A4. apply remove_idem. }
    assert (E5 : d_idx d1 = S pos) by reflexivity.
    assert (B1 : base log d1 (S pos) none).
    { destruct B as [C1 C2 C3 C4 C5 C6 C7]. constructor; try rewrite E1; try rewrite E2; try rewrite E3; auto.
      rewrite E4. auto. }
    assert (IX : idxok log d1 (S pos)).
    { split; [lia|]. split.
      - rewrite E5. intros j J. replace j with (S pos) by lia. repeat split; auto.
      - intros x f L. destruct (b_log _ _ _ _ B1 x f (fun z => z) L) as [? _]. lia. }
    assert (PE1 : forall x, lookup x (d_prep d1) = None) by exact PE.
    pose proof (finish_quiet log snap first d1 (S pos) PL ltac:(lia) B1 IX PE1 ltac:(lia)) as FQ.
    rewrite E3, E5 in FQ.
    assert (FI1 : forall x f, In (x, f) (remove t (d_log d)) -> first <= f).
    { intros x f Q. apply (FI x f). unfold remove in Q. apply filter_In in Q. tauto. }
    specialize (FQ FI1). cbv zeta in FQ.
    destruct (after_settle log snap first d1 (remove t (d_log d)) (S pos)) as [w2 m2]. cbn [fst snd] in *.
    rewrite !writes_app. exact FQ.
  - destruct IV as (t & e & nl & Ee & EN & LP & NP & PP & LT & DI & ND & B).
    pose proof (entry_at_bound _ _ _ Ee) as BD.
    assert (SK : settle_all log first (map fst (d_prep d)) d0 (d_idx d0) (d_log d0)
      = ([WClear t], S pos, remove t (d_log d))).
    { rewrite A3, A5, DI. apply (settle_clear log first _ d0 t nl (S pos) e); auto; try lia.
      - apply keys_lookup, LT.
      - intros x f _ NE Q. rewrite A4 in Q. apply PP; auto.
      - rewrite A4. auto. }
    rewrite SK.
    set (d1 := writes d0 [WClear t]).
    assert (E1 : d_data d1 = d_data d) by exact A1.
    assert (E2 : d_tag d1 = d_tag (write d (WClear t))).
    { cbn. rewrite A6. reflexivity. }
    assert (E3 : d_log d1 = remove t (d_log d)).
    { cbn. rewrite A5. reflexivity. }
    assert (E4 : d_pre d1 = remove t (d_pre d)).
    { cbn. rewrite A4. reflexivity. }
    assert (E5 : d_idx d1 = S pos) by (cbn; congruence).
    assert (B1 : base log d1 (S pos) none).
    { destruct B as [C1 C2 C3 C4 C5 C6 C7]. constructor; try rewrite E1; try rewrite E2; try rewrite E3; auto.
      rewrite E4. auto. }
    assert (IX : idxok log d1 (S pos)).
    { split; [lia|]. split.
      - rewrite E5. intros j J. replace j with (S pos) by lia. repeat split; auto.
      - intros x f L. destruct (b_log _ _ _ _ B1 x f (fun z => z) L) as [? _]. lia. }
    assert (PE1 : forall x, lookup x (d_prep d1) = None) by exact PE.
    pose proof (finish_quiet log snap first d1 (S pos) PL ltac:(lia) B1 IX PE1 ltac:(lia)) as FQ.
    rewrite E3, E5 in FQ.
    assert (FI1 : forall x f, In (x, f) (remove t (d_log d)) -> first <= f).
    { intros x f Q. apply (FI x f). unfold remove in Q. apply filter_In in Q. tauto. }
    specialize (FQ FI1). cbv zeta in FQ.
    destruct (after_settle log snap first d1 (remove t (d_log d)) (S pos)) as [w2 m2]. cbn [fst snd] in *.
    rewrite !writes_app. exact FQ.
Qed.

(** ** Taking an entry *)

Lemma apply_idx : forall rep i e m, m_idx (snd (apply_entry rep i e m)) = i.
Proof.
  intros. destruct e; cbn [apply_entry txn_of]; try reflexivity;
    destruct (exec_txn _ _ _ _ _) as [[? ?] ?]; reflexivity.
Qed.

Lemma apply_txn : forall rep i e m t, txn_of e = Some t ->
  apply_entry rep i e m =
    (fst (fst (exec_txn rep i (m_lines m) e (m_pool m t))),
     mkMem i (snd (exec_txn rep i (m_lines m) e (m_pool m t)))
       (upd (m_pool m) t (snd (fst (exec_txn rep i (m_lines m) e (m_pool m t)))))).
Proof.
  intros rep i e m t T. destruct e; cbn [txn_of] in T; try discriminate; injection T as ->;
    cbn [apply_entry txn_of]; destruct (exec_txn _ _ _ _ _) as [[? ?] ?]; reflexivity.
Qed.

Lemma same_refl : forall a, same a a.
Proof. intro a. repeat split; auto. Qed.

Lemma same_trans : forall a b c, same a b -> same b c -> same a c.
Proof.
  intros a b c (A1&A2&A3&A4) (B1&B2&B3&B4). repeat split; try congruence; intro Q.
  - apply B4, A4, Q.
  - apply A4, B4, Q.
Qed.

Lemma step_idx : forall log d m n e,
  proper log -> entry_at log (S n) = Some e -> core log d (m_pool m) n none ->
  let d' := writes d (fst (apply_entry false (S n) e m)) in
  d_idx d' = S n \/ (d_idx d' = d_idx d /\ same (mean log n) (mean log (S n)) /\ d_log d' = d_log d).
Proof.
  intros log d m n e PL Ee K. cbv zeta.
  pose proof (mean_S _ _ _ Ee) as MS.
  destruct (txn_of e) as [t|] eqn:T.
  2:{ destruct e; cbn [txn_of] in T; try discriminate; left; reflexivity. }
  rewrite (apply_txn _ _ _ _ _ T). cbn [fst].
  destruct (exec_txn false (S n) (m_lines m) e (m_pool m t)) as [[ws o'] k'] eqn:EXE. cbn [fst].
  destruct (exec_spec _ _ _ _ _ _ _ _ _ T EXE) as [_ SH].
  rewrite (k_pool _ _ _ _ _ K t) in SH.
  destruct (own_rest (mean log n) e t T) as [M1 [M2 M3]]. rewrite <- MS in M1, M2, M3.
  assert (OO : forall x, x <> t -> sp_open (mean log (S n)) x = sp_open (mean log n) x).
  { intros x N. rewrite MS. apply open_other. congruence. }
  assert (OT : sp_open (mean log (S n)) t =
    match fate_of e (sp_open (mean log n) t) with Stays x => x | _ => None end).
  { rewrite MS. apply open_own, T. }
  pose proof (k_pool _ _ _ _ _ K t) as KP.
  destruct (fate_of e (sp_open (mean log n) t)) as [[y|]|b|rb] eqn:FT; cbn [shape] in SH.
  - subst ws. destruct (m_pool m t) as [p|]; cbn [begin_writes app].
    + right. split; [destruct (_ && _); reflexivity|]. split; [|destruct (_ && _); reflexivity].
      repeat split; auto.
      * intro Q. destruct (Nat.eq_dec t0 t) as [->|NE]; [rewrite Q in KP; discriminate|rewrite OO; auto].
      * intro Q. destruct (Nat.eq_dec t0 t) as [->|NE]; [congruence|rewrite <- OO; auto].
    + left. destruct (_ && _); reflexivity.
  - destruct SH as [_ ->]. right. split; [reflexivity|]. split; [|reflexivity].
    pose proof (stays_none _ _ FT) as ON.
    repeat split; auto; intro Q; (destruct (Nat.eq_dec t0 t) as [->|NE]; [congruence|]).
    + rewrite OO; auto.
    + rewrite <- OO; auto.
  - left. destruct SH as [n1 [(sq & p & -> & PT & PP & -> & ->)|(bg & bad & sq & c & -> & SQ & ->)]].
    + reflexivity.
    + rewrite writes_app, writes_app. reflexivity.
  - left. destruct SH as [n1 [n2 [tag [(sq & p & -> & PT & PP & -> & -> & ->)|(bg & sq & -> & -> & ->)]]]].
    + reflexivity.
    + rewrite !writes_app. reflexivity.
Qed.

Lemma deliver_inv : forall log d m pos e,
  proper log -> up_inv log d m pos -> entry_at log (S pos) = Some e ->
  up_inv log (writes d (fst (handle log m pos))) (snd (handle log m pos)) (S pos).
Proof.
  intros log d m pos e PL (K & IX & DI & LN) Ee. unfold handle. rewrite Ee.
  pose proof (entry_at_bound _ _ _ Ee) as BD.
  destruct (S pos <=? m_idx m) eqn:LE.
  - apply Nat.leb_le in LE. cbn [fst snd writes fold_left]. unfold up_inv.
    replace (max (S pos) (m_idx m)) with (max pos (m_idx m)) by lia. auto.
  - apply Nat.leb_gt in LE. replace (max pos (m_idx m)) with pos in * by lia.
    pose proof (step_core false log d m pos e none PL Ee K (fun _ x => match x with end)) as C.
    pose proof (step_idx log d m pos e PL Ee K) as SI. cbv zeta in SI.
    pose proof (apply_idx false (S pos) e m) as AI.
    unfold up_inv. rewrite AI, Nat.max_id.
    split; [exact C|]. destruct IX as (X1 & X2 & X3).
    destruct SI as [SI|(SI & SM & SL)].
    + split; [|split; [lia|lia]]. split; [lia|]. split.
      * rewrite SI. intros j J. replace j with (S pos) by lia. apply same_refl.
      * intros t f L. destruct C as [B _ _]. destruct (b_log _ _ _ _ B t f (fun x => x) L) as [? _]. lia.
    + split; [|split; [lia|lia]]. split; [lia|]. split.
      * intros j J. destruct (Nat.eq_dec j (S pos)) as [->|N]; [apply same_refl|].
        apply (same_trans _ (mean log pos)); [apply X2; lia|exact SM].
      * intros t f L. rewrite SL in L. rewrite SI. eauto.
Qed.

(** ** Stopping *)

Lemma up_quiet : forall log d m pos, up_inv log d m pos -> preprep d none -> down_quiet log d pos.
Proof.
  intros log d m pos (K & IX & DI & LN) PP. exists (max pos (m_idx m)).
  split; [lia|]. split; [apply (k_base _ _ _ _ _ K)|]. auto.
Qed.

Lemma not_half : forall d, ~ half_ended d -> preprep d none.
Proof.
  intros d N t _ Q. destruct (lookup t (d_pre d)) as [p|] eqn:L; [|congruence].
  destruct (in_dec Nat.eq_dec t (map fst (d_prep d))) as [I1|I1]; [auto|].
  exfalso. apply N. exists t, p. split; [apply lookup_In, L|auto].
Qed.

(** Some writes about an open transaction that change none of the other claims. *)
Lemma quiet_more : forall log d m pos t ws,
  up_inv log d m pos -> preprep d none -> Forall (about t) ws ->
  sp_open (mean log (max pos (m_idx m))) t <> None ->
  d_data (writes d ws) = d_data d -> d_tag (writes d ws) = d_tag d -> d_idx (writes d ws) = d_idx d ->
  d_log (writes d ws) = d_log d ->
  In t (map fst (d_prep (writes d ws))) ->
  down_quiet log (writes d ws) pos.
Proof.
  intros log d m pos t ws (K & IX & DI & LN) PP AB OP E1 E2 E3 E4 E5.
  destruct K as [[B1 B2 B3 B4 B5 B6 B7] K2 K3].
  exists (max pos (m_idx m)). split; [lia|]. split; [|split].
  - constructor; try rewrite E1; try rewrite E2; try rewrite E4; auto.
    intros x X Q. destruct (Nat.eq_dec x t) as [->|NE]; [auto|].
    destruct (about_other t ws d x AB NE) as (_ & Q2 & _). rewrite Q2 in Q. eauto.
  - unfold idxok. rewrite E3, E4. exact IX.
  - intros x X Q. destruct (Nat.eq_dec x t) as [->|NE]; [auto|].
    destruct (about_other t ws d x AB NE) as (_ & Q2 & Q3). rewrite Q2 in Q.
    apply keys_lookup. rewrite Q3. apply keys_lookup. auto.
Qed.

Lemma begun_prefix : forall log d m pos t e ws,
  up_inv log d m pos -> m_idx m <= pos -> preprep d none -> Forall (about t) ws ->
  entry_at log (S pos) = Some e -> txn_of e = Some t ->
  sp_open (mean log pos) t = None -> fate_of e None <> Stays None ->
  d_data (writes d ws) = d_data d -> d_tag (writes d ws) = d_tag d -> d_idx (writes d ws) = S pos ->
  lookup t (d_log (writes d ws)) = Some (S pos) ->
  (lookup t (d_pre (writes d ws)) <> None ->
     In t (map fst (d_prep (writes d ws))) /\ ends (fate_of e None)) ->
  down_begun log (writes d ws) pos.
Proof.
  intros log d m pos t e ws (K & IX & DI & LN) ME PP AB Ee T ON FT E1 E2 E3 E4 E5.
  replace (max pos (m_idx m)) with pos in * by lia.
  destruct K as [[B1 B2 B3 B4 B5 B6 B7] K2 K3].
  exists t, e. repeat (split; [assumption|]). split; [|split; [assumption|split; [assumption|split]]].
  - constructor; try rewrite E1; try rewrite E2; auto.
    + apply (about_nd t); auto.
    + intros x f X L. destruct (about_other t ws d x AB ltac:(congruence)) as (Q & _ & _). rewrite Q in L.
      apply B5; auto.
    + intros x Q. destruct (Nat.eq_dec x t) as [->|NE]; [congruence|].
      destruct (about_other t ws d x AB NE) as (R & _ & _). rewrite R. auto.
    + intros x X Q. destruct (about_other t ws d x AB ltac:(congruence)) as (_ & R & _). rewrite R in Q.
      apply B7; auto.
  - intros x X Q. destruct (Nat.eq_dec x t) as [->|NE]; [apply E5, Q|].
    destruct (about_other t ws d x AB NE) as (_ & Q2 & Q3). rewrite Q2 in Q.
    apply keys_lookup. rewrite Q3. apply keys_lookup. auto.
  - intros y Q. destruct (lookup t (d_pre (writes d ws))) eqn:L; [|reflexivity].
    destruct E5 as [_ E5]; [discriminate|]. rewrite Q in E5. destruct E5.
Qed.

Lemma ended_prefix : forall log d m pos t e nl n2 tag ws,
  proper log -> up_inv log d m pos -> m_idx m <= pos -> preprep d none -> Forall (about t) ws ->
  entry_at log (S pos) = Some e -> txn_of e = Some t -> is_end e = true ->
  fst (apply_entry false (S pos) e m) = ws ++ [WAfter t n2 (S pos) tag] ->
  lookup t (d_pre (writes d ws)) = Some (nl, S pos) ->
  lookup t (d_prep (writes d ws)) = None ->
  lookup t (d_log (writes d ws)) <> None ->
  d_idx (writes d ws) <= S pos ->
  (is_roll e = true -> In t (sp_rolled (mean log (S pos)))) ->
  (is_roll e = false -> tag = false) ->
  down_ended log (writes d ws) pos.
Proof.
  intros log d m pos t e nl n2 tag ws PL (K & IX & DI & LN) ME PP AB Ee T EN AE E1 E2 E3 E4 RB TG.
  replace (max pos (m_idx m)) with pos in * by lia.
  pose proof (step_core false log d m pos e none PL Ee K (fun _ x => match x with end)) as C.
  rewrite AE, writes_app in C. destruct C as [[C1 C2 C3 C4 C5 C6 C7] _ _].
  exists t, e, nl. split; [auto|]. split; [auto|]. split; [auto|].
  split; [rewrite keys_lookup; congruence|]. split; [|split; [auto|split; [auto|split]]].
  - intros x X Q. destruct (about_other t ws d x AB ltac:(congruence)) as (_ & Q2 & Q3). rewrite Q2 in Q.
    apply keys_lookup. rewrite Q3. apply keys_lookup. apply PP; auto.
  - apply (about_nd t); auto. apply (b_nd _ _ _ _ (k_base _ _ _ _ _ K)).
  - cbn [writes fold_left write d_data d_tag d_log d_pre] in C1, C2, C3, C4, C5, C6, C7.
    constructor; cbn [write d_data d_tag d_log d_pre]; auto.
    + destruct (is_roll e) eqn:R.
      * intros x [<-|Q]; [auto|]. apply C2. destruct tag; [right|]; exact Q.
      * rewrite (TG eq_refl) in C2. exact C2.
    + destruct (is_roll e) eqn:R.
      * intros x Q. specialize (C3 x Q). destruct tag; [exact C3|right; exact C3].
      * rewrite (TG eq_refl) in C3. exact C3.
Qed.

Lemma full_preprep : forall log d m n e,
  proper log -> entry_at log (S n) = Some e -> core log d (m_pool m) n none -> preprep d none ->
  preprep (writes d (fst (apply_entry false (S n) e m))) none.
Proof.
  intros log d m n e PL Ee K PP.
  pose proof (step_core false log d m n e none PL Ee K (fun _ x => match x with end)) as C.
  destruct (txn_of e) as [t|] eqn:T.
  2:{ destruct e; cbn [txn_of] in T; try discriminate; exact PP. }
  pose proof (mean_S _ _ _ Ee) as MS.
  rewrite (apply_txn _ _ _ _ _ T) in *. cbn [fst] in *.
  destruct (exec_txn false (S n) (m_lines m) e (m_pool m t)) as [[ws o'] k'] eqn:EXE. cbn [fst] in *.
  destruct (exec_spec _ _ _ _ _ _ _ _ _ T EXE) as [_ SH].
  rewrite (k_pool _ _ _ _ _ K t) in SH.
  pose proof (shape_about _ _ _ _ _ _ SH) as AB.
  intros x X Q. destruct (Nat.eq_dec x t) as [->|NE].
  - pose proof (b_pre _ _ _ _ (k_base _ _ _ _ _ C) t X Q) as OS.
    assert (OT : sp_open (mean log (S n)) t =
      match fate_of e (sp_open (mean log n) t) with Stays x => x | _ => None end).
    { rewrite MS. apply open_own, T. }
    destruct (fate_of e (sp_open (mean log n) t)) as [[y|]|b|rb] eqn:FT; try congruence.
    cbn [shape] in SH.
    assert (Q' : lookup t (d_pre d) <> None).
    { subst ws. destruct (m_pool m t); cbn [begin_writes] in Q; destruct (_ && _) in Q; exact Q. }
    apply (PP t X) in Q'. apply keys_lookup in Q'. rewrite (k_prep _ _ _ _ _ K) in Q'.
    destruct (sp_open (mean log n) t) as [z|] eqn:Z; [|cbn in Q'; congruence].
    cbn [prep_view] in Q'. destruct (o_prep z) eqn:PZ; [|congruence].
    destruct PL as [_ P2]. pose proof (stays_prepared e z y PZ FT (P2 n e t z Ee T Z PZ)) as ->.
    apply keys_lookup. rewrite (k_prep _ _ _ _ _ C), OT. cbn [prep_view]. rewrite PZ. discriminate.
  - destruct (about_other t ws d x AB NE) as (_ & Q2 & Q3). rewrite Q2 in Q.
    apply keys_lookup. rewrite Q3. apply keys_lookup. auto.
Qed.

Ltac slim := cbn [writes fold_left write d_data d_lines d_idx d_pre d_log d_prep d_tag].

Ltac close_ended T PT EXE KR KP PB :=
  first
  [ solve [repeat constructor]
  | solve [rewrite (apply_txn _ _ _ _ _ T); first [rewrite EXE|rewrite PT, EXE]; reflexivity]
  | solve [discriminate]
  | slim; solve [lia | auto]
  | slim; rewrite ?lookup_store, ?lookup_remove, ?Nat.eqb_refl; solve [reflexivity | discriminate | auto]
  | slim; rewrite KR, ?KP; unfold prep_view; solve [reflexivity
      | match goal with |- match ?o with _ => _ end = _ => destruct o end; [|reflexivity];
        rewrite <- PB, ?PT; cbn [prepb]; try match goal with H : _ = false |- _ => rewrite H end; reflexivity ] ].

Lemma stop_inv : forall log d m pos k,
  proper log -> up_inv log d m pos -> ~ half_ended d -> ~ splits_one_phase log d m pos k ->
  inv log (Down (writes d (firstn k (fst (handle log m pos)))) pos).
Proof.
  intros log d m pos k PL U NH NS. pose proof (not_half d NH) as PP. cbn [inv].
  assert (QUIET : down_quiet log d pos) by (eapply up_quiet; eauto).
  destruct (entry_at log (S pos)) as [e|] eqn:Ee.
  2:{ left. unfold handle. rewrite Ee. cbn [fst]. rewrite firstn_nil. exact QUIET. }
  pose proof (entry_at_bound _ _ _ Ee) as BD.
  assert (FULL : length (fst (handle log m pos)) <= k ->
    down_quiet log (writes d (firstn k (fst (handle log m pos)))) pos).
  { intro L. rewrite firstn_all2 by exact L.
    pose proof (deliver_inv log d m pos e PL U Ee) as DV.
    assert (PP' : preprep (writes d (fst (handle log m pos))) none).
    { unfold handle. rewrite Ee. destruct (S pos <=? m_idx m) eqn:LE; [exact PP|].
      apply Nat.leb_gt in LE. destruct U as (K & _). replace (max pos (m_idx m)) with pos in K by lia.
      apply (full_preprep log d m pos e PL Ee K PP). }
    destruct (up_quiet _ _ _ _ DV PP') as (n & A & B). exists n. split; [lia|exact B]. }
  destruct (Nat.le_gt_cases (length (fst (handle log m pos))) k) as [GE|LTk]; [left; auto|].
  clear FULL. destruct k as [|k]; [left; exact QUIET|]. clear QUIET.
  assert (HE : fst (handle log m pos) = fst (apply_entry false (S pos) e m) /\ m_idx m <= pos).
  { unfold handle in *. rewrite Ee in *. destruct (S pos <=? m_idx m) eqn:LE; [cbn in LTk; lia|].
    apply Nat.leb_gt in LE. split; [reflexivity|lia]. }
  destruct HE as [HE ME].
  destruct (txn_of e) as [t|] eqn:T.
  2:{ exfalso. rewrite HE in LTk. destruct e; cbn [txn_of] in T; try discriminate; cbn in LTk; lia. }
  pose proof U as (K & IX & DI & LN). replace (max pos (m_idx m)) with pos in K by lia.
  pose proof (mean_S _ _ _ Ee) as MS.
  pose proof HE as HE'. rewrite (apply_txn _ _ _ _ _ T) in HE. cbn [fst] in HE.
  destruct (exec_txn false (S pos) (m_lines m) e (m_pool m t)) as [[ws o'] k'] eqn:EXE. cbn [fst] in HE.
  destruct (exec_spec _ _ _ _ _ _ _ _ _ T EXE) as [_ SH].
  rewrite (k_pool _ _ _ _ _ K t) in SH.
  pose proof (k_pool _ _ _ _ _ K t) as KP.
  pose proof (k_prep _ _ _ _ _ K t) as KR.
  pose proof (prepb_abs _ _ KP) as PB.
  unfold splits_one_phase in NS. rewrite HE in LTk, NS |- *. clear HE.
  destruct (own_rest (mean log pos) e t T) as [M1 [M2 M3]]. rewrite <- MS in M1, M2, M3.
  assert (DP : sp_open (mean log pos) t = None -> lookup t (d_pre d) = None).
  { intro Q. destruct (lookup t (d_pre d)) eqn:L; [|reflexivity]. exfalso.
    apply (b_pre _ _ _ _ (k_base _ _ _ _ _ K) t (fun x => x)); [congruence|exact Q]. }
  assert (DLG : sp_open (mean log pos) t <> None -> lookup t (d_log d) <> None).
  { apply (b_log' _ _ _ _ (k_base _ _ _ _ _ K)). }
  assert (MAXE : max pos (m_idx m) = pos) by lia.
  destruct (fate_of e (sp_open (mean log pos) t)) as [[y|]|b|rb] eqn:FT; cbn [shape] in SH.
  - (* stays open *)
    destruct (m_pool m t) as [p|] eqn:PT; cbn [begin_writes app] in SH.
    + exfalso. subst ws. destruct (_ && _) in LTk; cbn in LTk; lia.
    + cbn in KP. symmetry in KP. rewrite KP in FT.
      destruct (_ && _) in SH; subst ws; cbn [length] in LTk; [|lia].
      assert (k = 0) by lia. subst k. cbn [firstn]. right; left.
      eapply begun_prefix with (m := m) (t := t); eauto.
      * repeat constructor.
      * congruence.
      * cbn. rewrite Nat.eqb_refl. reflexivity.
      * slim. rewrite (DP KP). congruence.
  - exfalso. destruct SH as [_ ->]. cbn in LTk. lia.
  - (* commits *)
    destruct SH as [n1 [(sq & p & -> & PT & PP1 & -> & ->)|(bg & bad & sq & c & -> & SQ & ->)]].
    + assert (OP : sp_open (mean log pos) t <> None) by (rewrite <- KP, PT; discriminate).
      destruct k as [|[|k]]; [| |cbn in LTk; lia]; cbn [firstn].
      * left. eapply quiet_more with (m := m) (t := t); eauto.
        -- repeat constructor.
        -- rewrite MAXE. exact OP.
        -- slim. apply keys_lookup. rewrite KR, <- KP, PT. cbn.
           rewrite PP1. discriminate.
      * right; right; left. rewrite (apply_txn _ _ _ _ _ T) in HE'. cbn [fst] in HE'. rewrite EXE in HE'. cbn [fst] in HE'.
        eapply ended_prefix with (m := m) (t := t) (nl := n1) (n2 := n1) (tag := false); eauto;
          close_ended T PT EXE KR KP PB.
    + destruct (m_pool m t) as [p|] eqn:PT; cbn [begin_writes app] in *.
      * assert (OP : sp_open (mean log pos) t <> None) by (rewrite <- KP; discriminate).
        destruct (prepb (Some p)) eqn:PBB.
        -- cbn [app] in *. destruct k as [|[|k]]; [| |cbn in LTk; lia]; cbn [firstn].
           ++ left. eapply quiet_more with (m := m) (t := t); eauto.
              ** repeat constructor.
              ** rewrite MAXE. exact OP.
              ** slim. apply keys_lookup. rewrite KR.
                 destruct (sp_open (mean log pos) t); [|congruence]. cbn. rewrite <- PB. discriminate.
           ++ exfalso. apply NS. split; [exists t, bg, bad, sq, c; split; [auto|congruence]|]. split; [|cbn; lia].
              cbn. rewrite app_length. cbn. lia.
        -- cbn [app] in *. destruct k as [|[|[|k]]]; [| | |cbn in LTk; lia]; cbn [firstn].
           ++ left. eapply quiet_more with (m := m) (t := t); eauto.
              ** repeat constructor.
              ** rewrite MAXE. exact OP.
              ** left. reflexivity.
           ++ left. eapply quiet_more with (m := m) (t := t); eauto.
              ** repeat constructor.
              ** rewrite MAXE. exact OP.
              ** left. reflexivity.
           ++ exfalso. apply NS. split; [exists t, bg, bad, sq, c; split; [auto|congruence]|]. split; [|cbn; lia].
              cbn. rewrite app_length. cbn. lia.
      * cbn in KP. symmetry in KP. rewrite KP in FT. cbn [prepb app] in *.
        destruct k as [|[|[|[|k]]]]; [| | | |cbn in LTk; lia]; cbn [firstn].
        -- right; left. eapply begun_prefix with (m := m) (t := t); eauto.
           ++ repeat constructor.
           ++ congruence.
           ++ cbn. rewrite Nat.eqb_refl. reflexivity.
           ++ slim. rewrite (DP KP). congruence.
        -- right; left. eapply begun_prefix with (m := m) (t := t); eauto.
           ++ repeat constructor.
           ++ congruence.
           ++ cbn. rewrite Nat.eqb_refl. reflexivity.
           ++ slim. rewrite (DP KP). congruence.
        -- right; left. eapply begun_prefix with (m := m) (t := t); eauto.
           ++ repeat constructor.
           ++ congruence.
           ++ cbn. rewrite Nat.eqb_refl. reflexivity.
           ++ intros _. split; [left; reflexivity|]. rewrite FT. exact Logic.I.
        -- right; right; right.
           pose proof (step_core false log d m pos _ none PL Ee K (fun _ x => match x with end)) as C.
           rewrite (apply_txn _ _ _ _ _ T), PT, EXE in C. cbn [fst] in C.
           assert (AB : Forall (about t) [WBegin (W:=W) t (S pos); WPrepare t b; WPre t n1 (S pos); WCommit t b])
             by (repeat constructor).
           exists t, (EPrep t bg bad sq c true), n1.
           split; [auto|]. split; [reflexivity|]. split; [slim; rewrite lookup_store, Nat.eqb_refl; reflexivity|].
           split; [rewrite keys_lookup; slim; rewrite lookup_remove, Nat.eqb_refl; congruence|].
           split; [|split; [slim; rewrite lookup_store, Nat.eqb_refl; discriminate|split; [reflexivity|split]]].
           ++ intros x X Q. destruct (about_other t _ d x AB ltac:(congruence)) as (_ & Q2 & Q3). rewrite Q2 in Q.
              apply keys_lookup. rewrite Q3. apply keys_lookup. apply PP; auto.
           ++ apply (about_nd t); auto. apply (b_nd _ _ _ _ (k_base _ _ _ _ _ K)).
           ++ destruct C as [[C1 C2 C3 C4 C5 C6 C7] _ _]. constructor; auto.
  - (* dropped *)
    destruct SH as [n1 [n2 [tag [(sq & p & -> & PT & PP1 & -> & -> & ->)|(bg & sq & -> & -> & ->)]]]].
    + assert (OP : sp_open (mean log pos) t <> None) by (rewrite <- KP, PT; discriminate).
      destruct k as [|k]; [|cbn in LTk; lia]; cbn [firstn].
      right; right; left. eapply ended_prefix with (m := m) (t := t) (nl := n1) (n2 := n2) (tag := false); eauto;
          close_ended T PT EXE KR KP PB.
    + assert (RL : In t (sp_rolled (mean log (S pos)))) by (rewrite M2; left; reflexivity).
      assert (IXL : d_idx d <= pos) by lia.
      destruct (m_pool m t) as [p|] eqn:PT; cbn [begin_writes app] in *.
      * assert (OP : sp_open (mean log pos) t <> None) by (rewrite <- KP; discriminate).
        destruct (prepb (Some p)) eqn:PBB; cbn [app] in *.
        -- destruct k as [|[|k]]; [| |cbn in LTk; lia]; cbn [firstn].
           ++ left. eapply quiet_more with (m := m) (t := t); eauto.
              ** repeat constructor.
              ** rewrite MAXE. exact OP.
              ** slim. apply keys_lookup. rewrite KR.
                 destruct (sp_open (mean log pos) t); [|congruence]. cbn. rewrite <- PB. discriminate.
           ++ right; right; left. eapply ended_prefix with (m := m) (t := t) (nl := n1) (n2 := n2) (tag := tag); eauto;
          close_ended T PT EXE KR KP PB.
        -- destruct k as [|k]; [|cbn in LTk; lia]; cbn [firstn].
           right; right; left. eapply ended_prefix with (m := m) (t := t) (nl := n1) (n2 := n2) (tag := tag); eauto;
          close_ended T PT EXE KR KP PB.
      * cbn in KP. symmetry in KP. rewrite KP in FT. cbn [prepb app] in *.
        destruct k as [|[|k]]; [| |cbn in LTk; lia]; cbn [firstn].
        -- right; left. eapply begun_prefix with (m := m) (t := t); eauto.
           ++ repeat constructor.
           ++ congruence.
           ++ cbn. rewrite Nat.eqb_refl. reflexivity.
           ++ slim. rewrite (DP KP). congruence.
        -- right; right; left. eapply ended_prefix with (m := m) (t := t) (nl := n1) (n2 := n2) (tag := tag); eauto;
          close_ended T PT EXE KR KP PB.
Qed.

(** ** Every covered execution *)

Lemma step_inv : forall log x v y,
  proper log -> inv log x -> covered log x v -> step log x v = Some y -> inv log y.
Proof.
  intros log x v y PL IV CV ST. destruct x as [d m pos|d pos]; destruct v as [|k|snap first|snap first k];
    cbn [step] in ST; try discriminate.
  - destruct (entry_at log (S pos)) as [e|] eqn:Ee; [|discriminate].
    pose proof (deliver_inv log d m pos e PL IV Ee) as DV.
    destruct (handle log m pos) as [ws m']. injection ST as <-. exact DV.
  - injection ST as <-. cbn [covered] in CV. destruct CV as [C1 C2]. apply stop_inv; auto.
  - destruct (snap <=? pos) eqn:L; [|discriminate]. apply Nat.leb_le in L.
    cbn [covered] in CV. destruct CV as [C1 C2].
    pose proof (start_inv log snap first d pos PL IV L C1 C2) as SI.
    destruct (boot log snap first d) as [ws m]. injection ST as <-. exact SI.
  - destruct (snap <=? pos) eqn:L; [|discriminate]. cbn [covered] in CV. subst k.
    cbn [firstn writes fold_left] in ST. injection ST as <-. exact IV.
Qed.

Lemma run_inv : forall log l x y,
  proper log -> inv log x -> all_covered log x l -> run log x l = Some y -> inv log y.
Proof.
  induction l as [|v l IH]; intros x y PL IV AC R; cbn [run] in R.
  - injection R as <-. exact IV.
  - cbn [all_covered] in AC. destruct AC as [CV AC].
    destruct (step log x v) as [z|] eqn:ST; [|discriminate].
    apply (IH z y); auto. eapply step_inv; eauto.
Qed.

Lemma fresh_inv : forall log, inv log fresh.
Proof.
  intro log. cbn [inv fresh up_inv]. unfold up_inv. cbn [m_idx Nat.max blank d_idx].
  split; [|split; [|split; [lia|lia]]].
  - constructor; [constructor|..]; rewrite ?mean_0; cbn; auto; try discriminate; try congruence;
      try apply incl_refl; apply NoDup_nil.
  - split; [cbn; lia|]. split; [|cbn; discriminate].
    intros j J. replace j with 0 by (cbn in J; lia). apply same_refl.
Qed.

Lemma deliver_covered : forall log n x, match x with Up _ _ _ => True | Down _ _ => False end ->
  all_covered log x (repeat Deliver n).
Proof.
  induction n as [|n IH]; intros x U; cbn [repeat all_covered]; [exact Logic.I|].
  destruct x as [d m pos|d pos]; [|contradiction]. split; [exact Logic.I|].
  cbn [step]. destruct (entry_at log (S pos)); [|exact Logic.I].
  destruct (handle log m pos). apply IH. exact Logic.I.
Qed.

Lemma straight_some : forall log n d m pos, pos + n <= length log ->
  exists d' m', run log (Up d m pos) (repeat Deliver n) = Some (Up d' m' (pos + n)).
Proof.
  induction n as [|n IH]; intros d m pos L; cbn [repeat run].
  - exists d, m. rewrite Nat.add_0_r. reflexivity.
  - cbn [step]. destruct (entry_at_some log (S pos) ltac:(lia)) as [e Ee]. rewrite Ee.
    destruct (handle log m pos) as [ws m'].
    destruct (IH (writes d ws) m' (S pos) ltac:(lia)) as (d' & m'' & R).
    exists d', m''. rewrite R. f_equal. f_equal. lia.
Qed.

Lemma up_end : forall log d m pos, up_inv log d m pos -> pos = length log -> max pos (m_idx m) = length log.
Proof. intros log d m pos (_ & _ & _ & L) E. lia. Qed.

Lemma straight_means : forall log, proper log ->
  exists y, straight log = Some y /\ caught_up log y /\
    d_data (disk_of y) = sp_data (mean log (length log)).
Proof.
  intros log PL.
  destruct (straight_some log (length log) blank (mkMem 0 0%Z (fun _ => None)) 0 ltac:(lia)) as (d & m & R).
  exists (Up d m (length log)). cbn [Nat.add] in R.
  split; [exact R|]. split; [reflexivity|].
  assert (IV : inv log (Up d m (length log))).
  { apply (run_inv log _ fresh _ PL (fresh_inv log) (deliver_covered log (length log) fresh Logic.I) R). }
  pose proof (up_end _ _ _ _ IV eq_refl) as E. destruct IV as (K & _). rewrite E in K.
  exact (b_data _ _ _ _ (k_base _ _ _ _ _ K)).
Qed.

Lemma same_data : forall log history x,
  proper log -> run log fresh history = Some x -> all_covered log fresh history -> caught_up log x ->
  exists y, straight log = Some y /\ d_data (disk_of x) = d_data (disk_of y).
Proof.
  intros log history x PL R AC CU. destruct (straight_means log PL) as (y & S1 & _ & S3).
  exists y. split; [exact S1|]. rewrite S3.
  pose proof (run_inv log history fresh x PL (fresh_inv log) AC R) as IV.
  destruct x as [d m pos|]; [|contradiction]. cbn in CU.
  pose proof (up_end _ _ _ _ IV CU) as E. destruct IV as (K & _). rewrite E in K.
  exact (b_data _ _ _ _ (k_base _ _ _ _ _ K)).
Qed.

Lemma running : forall log history d m pos,
  proper log -> run log fresh history = Some (Up d m pos) -> all_covered log fresh history ->
  exists n, pos <= n <= length log /\ d_data d = sp_data (mean log n) /\
    forall t, match m_pool m t, sp_open (mean log n) t with
              | Some p, Some x => o_seq x = p_seq p /\ o_prep x = p_prep p /\
                                  o_run x = map (fun s => (s_seq s, s_w s)) (p_stmts p)
              | None, None => True
              | _, _ => False
              end.
Proof.
  intros log history d m pos PL R AC.
  pose proof (run_inv log history fresh _ PL (fresh_inv log) AC R) as (K & _ & _ & L).
  exists (max pos (m_idx m)). split; [lia|]. split; [exact (b_data _ _ _ _ (k_base _ _ _ _ _ K))|].
  intro t. pose proof (k_pool _ _ _ _ _ K t) as P.
  destruct (m_pool m t) as [p|]; destruct (sp_open _ t) as [x|]; cbn in P; try discriminate; auto.
  injection P as <-. cbn. auto.
Qed.

Lemma records : forall log history d m pos,
  proper log -> run log fresh history = Some (Up d m pos) -> all_covered log fresh history ->
  exists n, pos <= n <= length log /\
    (forall t, In t (d_tag d) -> In t (sp_rolled (mean log n))) /\
    (forall t, In t (sp_tag (mean log n)) -> In t (d_tag d)).
Proof.
  intros log history d m pos PL R AC.
  pose proof (run_inv log history fresh _ PL (fresh_inv log) AC R) as (K & _ & _ & L).
  exists (max pos (m_idx m)). split; [lia|].
  destruct (k_base _ _ _ _ _ K) as [_ B2 B3 _ _ _ _]. split; [exact B2|exact B3].
Qed.

Lemma run_app : forall log l l' x, run log x (l ++ l') =
  match run log x l with Some y => run log y l' | None => None end.
Proof.
  induction l as [|v l IH]; intros l' x; cbn [app run]; [reflexivity|].
  destruct (step log x v); auto.
Qed.

Lemma covered_app : forall log l l' x y, all_covered log x l -> run log x l = Some y ->
  all_covered log y l' -> all_covered log x (l ++ l').
Proof.
  induction l as [|v l IH]; intros l' x y A R B; cbn [app run all_covered] in *.
  - injection R as ->. exact B.
  - destruct A as [A1 A2]. split; [exact A1|]. destruct (step log x v) as [z|]; [|discriminate]. eauto.
Qed.

Lemma catches_up : forall log history d pos,
  proper log -> run log fresh history = Some (Down d pos) -> all_covered log fresh history ->
  exists more x, all_covered log fresh (history ++ more) /\
    run log fresh (history ++ more) = Some x /\ caught_up log x.
Proof.
  intros log history d pos PL R AC.
  destruct (boot log 0 0 d) as [ws m] eqn:BT.
  destruct (straight_some log (length log) (writes d ws) m 0 ltac:(lia)) as (d' & m' & R').
  exists (Start 0 0 :: repeat Deliver (length log)), (Up d' m' (length log)).
  split; [|split; [|reflexivity]].
  - apply (covered_app _ _ _ _ _ AC R). cbn [all_covered step]. rewrite BT.
    split; [cbn; split; [lia|intros; lia]|]. cbn. apply deliver_covered. exact Logic.I.
  - rewrite run_app, R. cbn [run step]. rewrite BT. cbn [Nat.leb]. exact R'.
Qed.

(** ** Deciding the conditions, for examples *)

Definition same_txn e e' : bool :=
  match txn_of e, txn_of e' with Some t, Some t' => t =? t' | _, _ => false end.
Fixpoint proper1 (l : list (entry W)) : bool :=
  match l with
  | [] => true
  | e :: r => (negb (may_end e) || forallb (fun e' => negb (same_txn e e' && may_open e')) r) && proper1 r
  end.
Definition proper2 (log : list (entry W)) (n : nat) : bool :=
  match entry_at log (S n) with
  | None => true
  | Some e =>
      match txn_of e with
      | None => true
      | Some t =>
          match sp_open (mean log n) t with
          | None => true
          | Some x =>
              negb (o_prep x) ||
              match e with
              | EStmt _ _ _ s => s_seq s <=? o_seq x
              | EPrep _ _ _ q _ _ => q <=? o_seq x
              | _ => true
              end
          end
      end
  end.

Lemma proper_ok : forall log,
  proper1 log && forallb (proper2 log) (seq 0 (length log)) = true -> proper log.
Proof.
  intros log Q. apply andb_true_iff in Q. destruct Q as [Q1 Q2]. split.
  - clear Q2. induction log as [|a log IH]; intros i j e e' t LT Ei Ej Te Te' ME.
    + destruct i as [|[|i]]; discriminate.
    + cbn [proper1] in Q1. apply andb_true_iff in Q1. destruct Q1 as [Q0 Q1].
      destruct i as [|[|i]]; [discriminate| |].
      * cbn in Ei. injection Ei as ->. destruct j as [|[|j]]; [lia|lia|]. cbn in Ej.
        rewrite ME in Q0. cbn in Q0. rewrite forallb_forall in Q0.
        specialize (Q0 e' (nth_error_In _ _ Ej)). unfold same_txn in Q0. rewrite Te, Te', Nat.eqb_refl in Q0.
        cbn in Q0. destruct (may_open e'); [discriminate|reflexivity].
      * destruct j as [|[|j]]; [lia|lia|]. cbn in Ei, Ej.
        apply (IH Q1 (S i) (S j) e e' t); auto; lia.
  - intros n e t x Ee Te Ox Px. rewrite forallb_forall in Q2.
    pose proof (entry_at_bound _ _ _ Ee) as B.
    specialize (Q2 n). rewrite in_seq in Q2. specialize (Q2 ltac:(lia)). unfold proper2 in Q2.
    rewrite Ee, Te, Ox, Px in Q2. cbn in Q2. destruct e; auto; apply Nat.leb_le; exact Q2.
Qed.

Definition half_endedb d : bool :=
  existsb (fun q => negb (mem_nat (fst q) (map fst (d_prep d)))) (d_pre d).
Definition splitsb (log : list (entry W)) d m pos k : bool :=
  match entry_at log (S pos) with
  | Some (EPrep t _ _ _ _ true) =>
      match m_pool m t with
      | None => false
      | Some _ =>
          negb (length (d_data (writes d (firstn k (fst (handle log m pos))))) =? length (d_data d)) &&
          (k <? length (fst (handle log m pos)))
      end
  | _ => false
  end.
Definition coveredb (log : list (entry W)) (x : node W) (v : event) : bool :=
  match x, v with
  | Up d m pos, Stop k => negb (half_endedb d) && negb (splitsb log d m pos k)
  | Down d pos, Start snap first =>
      (first <=? S snap) && forallb (fun q => first <=? snd q) (d_log d)
  | Down _ _, StopStart _ _ k => k =? 0
  | _, _ => true
  end.
Fixpoint all_coveredb (log : list (entry W)) (x : node W) (l : list event) : bool :=
  match l with
  | [] => true
  | v :: r => coveredb log x v && match step log x v with Some y => all_coveredb log y r | None => true end
  end.

Lemma covered_ok : forall log l x, all_coveredb log x l = true -> all_covered log x l.
Proof.
  induction l as [|v l IH]; intros x Q; cbn [all_coveredb all_covered] in *; [exact Logic.I|].
  apply andb_true_iff in Q. destruct Q as [Q1 Q2]. split.
  - destruct x as [d m pos|d pos]; destruct v as [|k|snap first|snap first k]; cbn [coveredb covered] in *; auto.
    + apply andb_true_iff in Q1. destruct Q1 as [A B].
      apply negb_true_iff in A, B. split.
      * intros (t & p & I1 & N). assert (half_endedb d = true); [|congruence].
        apply existsb_exists. exists (t, p). split; [auto|]. cbn. apply negb_true_iff.
        destruct (mem_nat t (map fst (d_prep d))) eqn:M; [apply mem_nat_In in M; tauto|reflexivity].
      * intros ((t & b & bad & sq & c & Ee & P) & L1 & L2). unfold splitsb in B. rewrite Ee in B.
        destruct (m_pool m t); [|congruence].
        apply Nat.eqb_neq in L1. apply Nat.ltb_lt in L2. rewrite L1, L2 in B. discriminate.
    + apply andb_true_iff in Q1. destruct Q1 as [A B]. split; [apply Nat.leb_le, A|].
      intros t f I1. rewrite forallb_forall in B. apply Nat.leb_le, (B _ I1).
    + apply Nat.eqb_eq, Q1.
  - destruct (step log x v); auto.
Qed.

End Proofs.
