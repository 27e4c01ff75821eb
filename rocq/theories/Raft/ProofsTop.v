From Verif.Raft Require Import Model Spec ProofsTerm ProofsKeys ProofsLog ProofsRun.
Local Open Scope Z_scope.

Section Top.
Variable big : bool.
Variable c : codec.
Variable binlog : Z -> bool.

Lemma log_answers ls : codec_ok c -> legal_run c binlog init_spec ls ->
  exists s, run big c binlog init_sys ls = Some s /\
  forall r, p_open (spec_run c binlog init_spec ls) r = true ->
    exists m l, s_mem s r = Some m /\ p_log (spec_run c binlog init_spec ls) r = Some l /\
      answers_like c binlog big s r m l (p_clean (spec_run c binlog init_spec ls) r).
Proof.
  intros CO L. destruct (run_inv big c binlog CO ls _ _ (inv_init big c binlog)) as (s & E & I); auto.
  { intros r _. reflexivity. }
  exists s. split; auto. intros r O. eapply inv_answers; eauto.
Qed.
Lemma legal_app ls ls' : forall A, legal_run c binlog A (ls ++ ls') <-> legal_run c binlog A ls /\ legal_run c binlog (spec_run c binlog A ls) ls'.
Proof. induction ls as [|l ls IH]; intros A; cbn [app legal_run spec_run fold_left]; [tauto|]. rewrite IH. unfold spec_run. tauto. Qed.
Lemma run_app ls ls' : forall s, run big c binlog s (ls ++ ls') = match run big c binlog s ls with Some s' => run big c binlog s' ls' | None => None end.
Proof. induction ls as [|l ls IH]; intros s; cbn [app run]; auto. destruct (step big c binlog s l); auto. Qed.

(* what an operation of a reachable open region returns *)
Lemma op_returns ls s r m o : codec_ok c -> legal_run c binlog init_spec ls -> run big c binlog init_sys ls = Some s ->
  s_mem s r = Some m -> legal_on c binlog (spec_run c binlog init_spec ls) r o ->
  snd (do_rop big c (binlog r) r m o) = match o with RAppend es => Z.of_nat (length es) | _ => 0 end.
Proof.
  intros CO L E EM (OP & LG & _). destruct (run_inv big c binlog CO ls _ _ (inv_init big c binlog)) as (s' & E' & I); auto.
  { intros x _. reflexivity. }
  assert (s' = s) by congruence. subst s'. destruct (iv_open _ _ _ _ _ I _ OP) as (l & m' & EL & EM' & M). assert (m' = m) by congruence. subst m'.
  destruct (iv_log _ _ _ _ _ I _ _ EL) as (Hr & G & R & _). unfold log_of in LG. rewrite EL in LG. destruct o; cbn [do_rop].
  - eapply append_res; eauto. apply I.
  - unfold truncate_prefix. destruct (k <=? m_first m); auto. destruct (m_first m <? 0); auto.
  - unfold truncate_suffix. destruct (m_last m <=? k); auto.
  - unfold reset. destruct (truncate_prefix big r m next dropped) as [[a b] x]. destruct (truncate_suffix big r a (next - 1)) as [[a2 b2] y]. auto.
Qed.
Lemma append_gap b r m e es : e_index e <> m_last m + 1 -> append_entries big c b r m (e :: es) = (m, [], -1).
Proof. intros H. unfold append_entries. destruct (Z.eqb_spec (m_last m + 1) (e_index e)); [congruence|reflexivity]. Qed.

Lemma crash_cases l o n : crash_result l o n = l \/ crash_result l o n = spec_op l o \/
  exists k dr, o = RReset k dr /\ crash_result l o n = spec_op l (RTruncPrefix k dr).
Proof.
  destruct n as [|n]; cbn [crash_result]; auto. destruct o; auto. destruct (_ && _); eauto 6.
Qed.
(* stop during an operation and reopen any region *)
Lemma crash_reopen ls r o n r' : codec_ok c ->
  let A := spec_run c binlog init_spec ls in
  legal_run c binlog init_spec ls -> legal_on c binlog A r o -> i64 r' ->
  exists s m l', run big c binlog init_sys (ls ++ [CrashDuring r o n; Open r']) = Some s /\ s_mem s r' = Some m /\
    answers_like c binlog big s r' m l' (if r' =? r then false else p_clean A r') /\
    m_confs m = filter is_conf (l_ents l') /\
    if r' =? r then l' = log_of A r \/ l' = spec_op (log_of A r) o \/
                    exists k dr, o = RReset k dr /\ l' = spec_op (log_of A r) (RTruncPrefix k dr)
    else l' = log_of A r'.
Proof.
  intros CO A L LO H'. 
  destruct (run_inv big c binlog CO (ls ++ [CrashDuring r o n]) _ _ (inv_init big c binlog)) as (s1 & E1 & I1).
  { intros x _. reflexivity. }
  { apply legal_app. split; auto. cbn [legal_run legal]. split; auto. }
  assert (SR : spec_run c binlog init_spec (ls ++ [CrashDuring r o n]) = spec_step c binlog A (CrashDuring r o n)) by (unfold spec_run; rewrite fold_left_app; reflexivity).
  rewrite SR in I1. set (A1 := spec_step c binlog A (CrashDuring r o n)) in *.
  assert (CK : clean_ok A1).
  { apply clean_step. assert (G : forall ls A0, clean_ok A0 -> clean_ok (spec_run c binlog A0 ls)).
    { clear. induction ls as [|l ls IH]; intros A0 H; auto. cbn [spec_run fold_left]. apply IH. apply clean_step. auto. }
    apply G. intros x _. reflexivity. }
  destruct (inv_step big c binlog CO s1 A1 (Open r') I1 CK H') as (s2 & E2 & I2).
  destruct (inv_answers big c binlog CO s2 _ r' I2) as (m & l' & EM & EL & AN).
  { cbn [spec_step p_open]. unfold upd. rewrite Z.eqb_refl. auto. }
  assert (EL' : l' = log_of A1 r') by (cbn [spec_step p_log] in EL; unfold upd in EL; rewrite Z.eqb_refl in EL; congruence).
  exists s2, m, l'. split.
  { replace (ls ++ [CrashDuring r o n; Open r']) with ((ls ++ [CrashDuring r o n]) ++ [Open r']) by (rewrite <- app_assoc; reflexivity).
    rewrite run_app, E1. cbn [run]. rewrite E2. auto. }
  split; auto. split.
  { cbn [spec_step p_clean A1] in AN. unfold upd in AN. exact AN. }
  split.
  { (* configurations found by the scan *)
    cbn [step] in E2. subst l'. unfold log_of.
    destruct (p_log A1 r') as [l|] eqn:E.
    - destruct (iv_log _ _ _ _ _ I1 _ _ E) as (Hr & G & R & _).
      destruct (open_ok big c binlog CO (binlog r') (s_disk s1) r' l _ Hr (iv_db _ _ _ _ _ I1) (inv_known_d _ _ _ _ _ I1) R G) as (m' & EO & _ & EC).
      rewrite EO in E2. injection E2; intros <-. cbn [s_mem] in EM. unfold upd in EM. rewrite Z.eqb_refl in EM. congruence.
    - destruct (inv_fresh _ _ _ _ _ _ I1 H' E) as [M0 D0].
      destruct (open_new big c binlog CO (binlog r') (s_disk s1) r' H' (iv_db _ _ _ _ _ I1) (inv_known_d _ _ _ _ _ I1) M0 D0) as (_ & m' & EO & _ & EC).
      rewrite EO in E2. injection E2; intros <-. cbn [s_mem] in EM. unfold upd in EM. rewrite Z.eqb_refl in EM. cbn. congruence. }
  subst l'. assert (Q : log_of A1 r' = if r' =? r then crash_result (log_of A r) o n else log_of A r').
  { unfold A1. unfold log_of at 1. cbn [spec_step p_log]. unfold upd. destruct (r' =? r); reflexivity. }
  rewrite Q. destruct (r' =? r); [apply crash_cases|reflexivity].
Qed.

(* compaction *)
Lemma filter_safe ls s sp k v : codec_ok c -> legal_run c binlog init_spec ls -> run big c binlog init_sys ls = Some s ->
  In (k, v) (db (s_disk s)) -> filter_removes big (s_fmap s) sp k = true ->
  exists r i l, k = data_key big r i /\ i64 r /\ i64 i /\ p_log (spec_run c binlog init_spec ls) r = Some l /\ i < l_first l /\ i < sp r.
Proof.
  intros CO L E IN F. destruct (run_inv big c binlog CO ls _ _ (inv_init big c binlog)) as (s' & E' & I); auto.
  { intros x _. reflexivity. }
  assert (s' = s) by congruence. subst s'. destruct (iv_known _ _ _ _ _ I _ _ IN) as (r & Hr & NN & [->|(i & Hi & ->)]).
  - unfold filter_removes in F. rewrite decode_meta in F. discriminate.
  - unfold filter_removes in F. rewrite decode_key in F by auto. destruct (s_fmap s r) as [f|] eqn:EF; [|discriminate].
    destruct (iv_fmap _ _ _ _ _ I _ _ EF) as (l & EL & LE). exists r, i, l.
    split; auto. split; auto. split; auto. split; auto. apply Z.ltb_lt in F. destruct (Z.ltb_spec f (sp r)); lia.
Qed.
End Top.
