(* Lemmas on records, maps and the reads and writes of a row *)
From Verif.Dml Require Import Model Spec.
Local Open Scope Z_scope.

Lemma memb_In f l : memb f l = true <-> In f l.
Proof.
  unfold memb. rewrite existsb_exists. split.
  - intros [x [Hx E]]. apply Nat.eqb_eq in E. subst. exact Hx.
  - intros Hin. exists f. split; [exact Hin|apply Nat.eqb_refl].
Qed.
Lemma memb_not f l : memb f l = false <-> ~ In f l.
Proof. rewrite <- memb_In. destruct (memb f l); split; congruence. Qed.

Lemma fset_length r f c : length (fset r f c) = length r.
Proof. revert f. induction r as [|h t IH]; intros [|f]; cbn; auto. Qed.
Lemma fget_fset r f c g : fget (fset r f c) g = if Nat.eqb g f then (if Nat.ltb f (length r) then c else None) else fget r g.
Proof.
  unfold fget. revert f g. induction r as [|h t IH]; intros f g.
  - cbn [fset length]. destruct (Nat.eqb_spec g f); [|reflexivity]. destruct g; reflexivity.
  - destruct f as [|f], g as [|g]; cbn [fset nth length]; try reflexivity. rewrite IH. reflexivity.
Qed.
Lemma fget_fset_eq r f c : (f < length r)%nat -> fget (fset r f c) f = c.
Proof. intros L. rewrite fget_fset, Nat.eqb_refl. apply Nat.ltb_lt in L. rewrite L. reflexivity. Qed.
Lemma fget_fset_ne r f c g : g <> f -> fget (fset r f c) g = fget r g.
Proof. intros N. rewrite fget_fset. apply Nat.eqb_neq in N. rewrite N. reflexivity. Qed.
Lemma fget_out r f : (length r <= f)%nat -> fget r f = None.
Proof. intros. apply nth_overflow. exact H. Qed.
Lemma rec_ext r r' : length r = length r' -> (forall f, (f < length r)%nat -> fget r f = fget r' f) -> r = r'.
Proof.
  unfold fget. revert r'. induction r as [|h t IH]; intros [|h' t'] L E; try discriminate; auto.
  f_equal; [exact (E O ltac:(cbn; lia))|]. apply IH; [cbn in L; lia|].
  intros f Hf. exact (E (S f) ltac:(cbn; lia)).
Qed.

Lemma set_all_length r fs cs : length (set_all r fs cs) = length r.
Proof. revert r cs. induction fs as [|f fs IH]; intros r [|c cs]; cbn; auto. rewrite IH, fset_length. reflexivity. Qed.
Lemma fget_set_all_out r fs cs g : ~ In g fs -> fget (set_all r fs cs) g = fget r g.
Proof.
  revert r cs. induction fs as [|f fs IH]; intros r [|c cs] N; cbn [set_all]; auto.
  rewrite IH; [|intros X; apply N; right; exact X]. apply fget_fset_ne. intros ->. apply N. left. reflexivity.
Qed.
Lemma fget_set_all_proj r fs o g : (g < length r)%nat -> In g fs -> fget (set_all r fs (proj o fs)) g = fget o g.
Proof.
  revert r. induction fs as [|f fs IH]; intros r L Hin; [inversion Hin|]; destruct Hin as [->|Hin]; cbn [proj map set_all].
  - destruct (in_dec Nat.eq_dec g fs) as [X|X].
    + apply IH; [rewrite fset_length; exact L|exact X].
    + rewrite fget_set_all_out by exact X. apply fget_fset_eq. exact L.
  - apply IH; [rewrite fset_length; exact L|exact Hin].
Qed.
Lemma set_all_proj r fs cs : NoDup fs -> Forall (fun f => (f < length r)%nat) fs -> length cs = length fs ->
  proj (set_all r fs cs) fs = cs.
Proof.
  revert r cs. induction fs as [|f fs IH]; intros r [|c cs] ND F L; try discriminate; auto.
  inversion ND; subst. inversion F; subst. cbn [proj map set_all]. f_equal.
  - rewrite fget_set_all_out by assumption. apply fget_fset_eq. assumption.
  - apply IH; [assumption| |cbn in L; lia]. eapply Forall_impl; [|eassumption]. cbn. intros. rewrite fset_length. assumption.
Qed.
Lemma proj_ext r r' fs : (forall f, In f fs -> fget r f = fget r' f) -> proj r fs = proj r' fs.
Proof. intros E. apply map_ext_in. exact E. Qed.
Lemma proj_eq_get r r' fs f : proj r fs = proj r' fs -> In f fs -> fget r f = fget r' f.
Proof.
  induction fs as [|g fs IH]; intros E Hin; [inversion Hin|]. cbn in E. inversion E.
  destruct Hin as [->|Hin]; auto.
Qed.
Lemma blank_length tb : length (blank tb) = tb_cols tb.
Proof. apply repeat_length. Qed.
Lemma fget_blank tb f : fget (blank tb) f = None.
Proof. unfold fget, blank. revert f. induction (tb_cols tb) as [|n IH]; intros [|f]; cbn; auto. Qed.

Lemma read_row_length tb fs st t : length (read_row tb fs st t) = length t.
Proof. unfold read_row. revert t. induction fs as [|f fs IH]; intros t; cbn [fold_left]; auto. rewrite IH, fset_length. reflexivity. Qed.
Lemma fget_read_row_in tb fs st t f : (f < length t)%nat -> In f fs -> fget (read_row tb fs st t) f = read_cell tb st f.
Proof.
  unfold read_row. revert t. induction fs as [|g fs IH]; intros t L Hin; [inversion Hin|]. cbn [fold_left].
  destruct (in_dec Nat.eq_dec f fs) as [X|X].
  - apply IH; [rewrite fset_length; exact L|exact X].
  - destruct Hin as [->|Hin]; [|contradiction].
    assert (E : forall t', fget (fold_left (fun r f0 => fset r f0 (read_cell tb st f0)) fs t') f = fget t' f).
    { clear -X. induction fs as [|h fs IH]; intros t'; cbn [fold_left]; auto. rewrite IH; [|intros Y; apply X; right; exact Y].
      apply fget_fset_ne. intros ->. apply X. left. reflexivity. }
    rewrite E. apply fget_fset_eq. exact L.
Qed.
Lemma fget_read_row_out tb fs st t f : ~ In f fs -> fget (read_row tb fs st t) f = fget t f.
Proof.
  unfold read_row. revert t. induction fs as [|h fs IH]; intros t X; cbn [fold_left]; auto. rewrite IH; [|intros Y; apply X; right; exact Y].
  apply fget_fset_ne. intros ->. apply X. left. reflexivity.
Qed.
Lemma In_nonpk tb f : In f (nonpk tb) <-> (f < tb_cols tb)%nat /\ ~ In f (tb_pk tb).
Proof.
  unfold nonpk. rewrite filter_In, in_seq, negb_true_iff, memb_not. split; intros [A B]; split; try exact B; lia.
Qed.

(* ---------------- maps ---------------- *)
Section MapL.
Context {K V : Type} (dec : forall a b : K, {a = b} + {a <> b}).
Lemma mget_del k k' (m : list (K * V)) : mget dec k (mdel dec k' m) = if dec k k' then None else mget dec k m.
Proof.
  induction m as [|[k2 v] m IH]; cbn [mdel filter fst mget]; [destruct (dec k k'); reflexivity|].
  fold (mdel dec k' m). destruct (dec k' k2) as [->|N]; cbn [mget].
  - rewrite IH. destruct (dec k k2); reflexivity.
  - rewrite IH. destruct (dec k k2) as [->|N2]; auto. destruct (dec k2 k'); congruence.
Qed.
Lemma mget_put k k' v (m : list (K * V)) : mget dec k (mput dec k' v m) = if dec k k' then Some v else mget dec k m.
Proof.
  unfold mput. cbn [mget]. destruct (dec k k') as [E|N]; auto. rewrite mget_del. destruct (dec k k'); congruence.
Qed.
End MapL.

(* ---------------- rows ---------------- *)
Lemma fits_key_rec_length tb p : length (key_rec tb p) = tb_cols tb.
Proof. unfold key_rec. rewrite set_all_length, blank_length. reflexivity. Qed.
Lemma full_row_length tb p st : length (full_row tb p st) = tb_cols tb.
Proof. unfold full_row. rewrite read_row_length. apply fits_key_rec_length. Qed.
Lemma pk_key_rec tb p : wf_table tb -> length p = length (tb_pk tb) -> pk_of tb (key_rec tb p) = p.
Proof.
  intros (ND & F & _) L. unfold pk_of, key_rec. apply set_all_proj; auto.
  eapply Forall_impl; [|exact F]. cbn. intros. rewrite blank_length. assumption.
Qed.
Lemma pk_full_row tb p st : wf_table tb -> length p = length (tb_pk tb) -> pk_of tb (full_row tb p st) = p.
Proof.
  intros WT L. rewrite <- (pk_key_rec tb p WT L) at 2. apply proj_ext. intros f Hf. unfold full_row.
  apply fget_read_row_out. rewrite In_nonpk. tauto.
Qed.
Lemma fget_full_row tb p st f : In f (nonpk tb) -> fget (full_row tb p st) f = read_cell tb st f.
Proof.
  intros Hf. unfold full_row. apply fget_read_row_in; [|exact Hf]. rewrite fits_key_rec_length. apply In_nonpk in Hf. tauto.
Qed.
Lemma read_cell_null tb st f : read_cell tb st f = None -> tb_default tb f = None.
Proof. unfold read_cell. destruct (fget st f); congruence. Qed.

Lemma encode_pk_some tb r p : encode_pk tb r = Some p <-> pk_of tb r = p /\ existsb isnull p = false.
Proof.
  unfold encode_pk, pk_of. destruct (existsb isnull (proj r (tb_pk tb))) eqn:E; split; intros X.
  - discriminate.
  - destruct X as [<- X]. congruence.
  - injection X as <-. auto.
  - destruct X as [<- _]. reflexivity.
Qed.
Lemma encode_pk_none tb r : encode_pk tb r = None <-> existsb isnull (pk_of tb r) = true.
Proof. unfold encode_pk, pk_of. destruct (existsb isnull (proj r (tb_pk tb))); split; congruence. Qed.
Lemma proj_length r fs : length (proj r fs) = length fs.
Proof. apply map_length. Qed.
Lemma pk_of_length tb r : length (pk_of tb r) = length (tb_pk tb).
Proof. apply proj_length. Qed.

Lemma rows_same ev st st' : st_rows st = st_rows st' -> forall p, rows ev st p = rows ev st' p.
Proof. intros E p. unfold rows, prow. rewrite E. reflexivity. Qed.
Lemma rows_remove ev st p q : rows ev (remove_primary st p) q = cdel (rows ev st) p q.
Proof.
  unfold rows, cdel, prow. cbn [st_rows remove_primary]. rewrite mget_del.
  destruct (cells_dec q p) as [->|N].
  - destruct (cells_dec p p); [|congruence]. destruct (e_fits ev p); reflexivity.
  - destruct (cells_dec p q); [congruence|]. reflexivity.
Qed.
Lemma rows_put ev st p r upd w q : e_fits ev p = true -> expired ev w = false ->
  rows ev (put_primary ev st p r upd w) q =
  cput (rows ev st) p w (full_row (e_tb ev) p (stored_row (e_tb ev) (option_map snd (prow st p)) r upd)) q.
Proof.
  intros Fi Ex. unfold rows, cput, prow at 1. cbn [st_rows put_primary]. rewrite mget_put.
  destruct (cells_dec q p) as [->|N].
  - destruct (cells_dec p p); [|congruence]. rewrite Fi, Ex. reflexivity.
  - destruct (cells_dec p q); [congruence|]. reflexivity.
Qed.

(* ---------------- the primary key of an index record ---------------- *)
Lemma entry_pk_row tb ix o : wf_table tb -> In ix (tb_indexes tb) -> length o = tb_cols tb ->
  entry_pk tb ix (proj o (ix_fields ix)) (proj o (ix_rest ix)) = pk_of tb o.
Proof.
  intros (ND & F & WI & _) Hix L. destruct (WI _ Hix) as (Fi & R & C). unfold entry_pk, pk_of.
  apply proj_ext. intros f Hf. rewrite Forall_forall in F. specialize (F f Hf).
  destruct (in_dec Nat.eq_dec f (ix_rest ix)) as [X|X].
  - apply fget_set_all_proj; [rewrite set_all_length, blank_length; exact F|exact X].
  - rewrite fget_set_all_out by exact X. destruct (C f Hf) as [Y|Y]; [|contradiction].
    apply fget_set_all_proj; [rewrite blank_length; exact F|exact Y].
Qed.
(* a record that agrees on the indexed columns gets the row's primary key *)
Lemma pk_set_rest tb ix o r : wf_table tb -> In ix (tb_indexes tb) -> length r = tb_cols tb ->
  proj r (ix_fields ix) = proj o (ix_fields ix) ->
  pk_of tb (set_all r (ix_rest ix) (proj o (ix_rest ix))) = pk_of tb o.
Proof.
  intros (ND & F & WI & _) Hix L E. destruct (WI _ Hix) as (Fi & R & C). unfold pk_of.
  apply proj_ext. intros f Hf. rewrite Forall_forall in F. specialize (F f Hf).
  destruct (in_dec Nat.eq_dec f (ix_rest ix)) as [X|X].
  - apply fget_set_all_proj; [rewrite L; exact F|exact X].
  - rewrite fget_set_all_out by exact X. destruct (C f Hf) as [Y|Y]; [|contradiction].
    exact (proj_eq_get _ _ _ _ E Y).
Qed.

(* ---------------- writes of index records ---------------- *)
Lemma pidx_put st ix r w k : pidx (put_secondary st ix r w) k =
  if ikey_dec k (rec_key ix r) then Some (w, rec_val ix r) else pidx st k.
Proof. unfold pidx. cbn [put_secondary st_index]. apply mget_put. Qed.
Lemma pidx_remove st ix r k : pidx (remove_secondary st ix r) k =
  if ikey_dec k (rec_key ix r) then None else pidx st k.
Proof. unfold pidx. cbn [remove_secondary st_index]. apply mget_del. Qed.

Lemma put_indexes_rows s ixs st r w : st_rows (put_indexes s ixs st r w) = st_rows st.
Proof.
  unfold put_indexes. revert st. induction ixs as [|ix ixs IH]; intros st; cbn [fold_left]; auto.
  rewrite IH. destruct (writable s ix); reflexivity.
Qed.
Lemma put_indexes_other s ixs st r w k : (forall ix, In ix ixs -> writable s ix = true -> k <> rec_key ix r) ->
  pidx (put_indexes s ixs st r w) k = pidx st k.
Proof.
  unfold put_indexes. revert st. induction ixs as [|ix ixs IH]; intros st N; cbn [fold_left]; auto.
  rewrite IH; [|intros; apply N; [right; assumption|assumption]].
  destruct (writable s ix) eqn:W; auto. rewrite pidx_put. destruct (ikey_dec k (rec_key ix r)); auto.
  exfalso. apply (N ix); [left; reflexivity|assumption|assumption].
Qed.
Lemma put_indexes_one s ixs st r w ix :
  (forall i j, In i ixs -> In j ixs -> ix_id i = ix_id j -> i = j) ->
  In ix ixs -> writable s ix = true ->
  pidx (put_indexes s ixs st r w) (rec_key ix r) = Some (w, rec_val ix r).
Proof.
  unfold put_indexes. revert st. induction ixs as [|i ixs IH]; intros st U Hin W; [inversion Hin|]. cbn [fold_left].
  assert (U' : forall a b, In a ixs -> In b ixs -> ix_id a = ix_id b -> a = b)
    by (intros a b Ha Hb; apply U; right; assumption).
  destruct (in_dec Z.eq_dec (ix_id ix) (map ix_id ixs)) as [X|X].
  - apply in_map_iff in X. destruct X as [j [E Hj]].
    assert (j = ix) by (apply U; [right; exact Hj|exact Hin|exact E]). subst j. apply IH; auto.
  - destruct Hin as [->|Hin]; [|exfalso; apply X; apply in_map; exact Hin]. rewrite W.
    change (pidx (put_indexes s ixs (put_secondary st ix r w) r w) (rec_key ix r) = Some (w, rec_val ix r)).
    rewrite put_indexes_other.
    + rewrite pidx_put. destruct (ikey_dec (rec_key ix r) (rec_key ix r)); congruence.
    + intros j Hj _ E. apply X. unfold rec_key in E. inversion E. apply in_map_iff. exists j. auto.
Qed.

Definition remove_indexes (ixs : list index) (st : store) (r : rec) : store :=
  fold_left (fun st ix => if removable ix then remove_secondary st ix r else st) ixs st.
Lemma remove_indexes_rows ixs st r : st_rows (remove_indexes ixs st r) = st_rows st.
Proof.
  unfold remove_indexes. revert st. induction ixs as [|ix ixs IH]; intros st; cbn [fold_left]; auto.
  rewrite IH. destruct (removable ix); reflexivity.
Qed.
Lemma remove_indexes_spec ixs st r k : pidx (remove_indexes ixs st r) k =
  if existsb (fun ix => removable ix && if ikey_dec k (rec_key ix r) then true else false) ixs then None else pidx st k.
Proof.
  unfold remove_indexes. revert st. induction ixs as [|ix ixs IH]; intros st; cbn [fold_left existsb]; auto.
  rewrite IH. destruct (existsb _ ixs) eqn:E; [rewrite orb_true_r; reflexivity|]. rewrite orb_false_r.
  destruct (removable ix); cbn [andb]; auto. rewrite pidx_remove. destruct (ikey_dec k (rec_key ix r)); reflexivity.
Qed.
Lemma remove_indexes_some ixs st r k v : pidx (remove_indexes ixs st r) k = Some v ->
  pidx st k = Some v /\ forall ix, In ix ixs -> removable ix = true -> k <> rec_key ix r.
Proof.
  rewrite remove_indexes_spec. destruct (existsb _ ixs) eqn:E; [discriminate|]. intros X. split; [exact X|].
  intros ix Hix R K.
  assert (existsb (fun ix => removable ix && if ikey_dec k (rec_key ix r) then true else false) ixs = true).
  { apply existsb_exists. exists ix. split; [exact Hix|]. rewrite R. destruct (ikey_dec k (rec_key ix r)); [reflexivity|contradiction]. }
  congruence.
Qed.
Lemma remove_indexes_other ixs st r k : (forall ix, In ix ixs -> removable ix = true -> k <> rec_key ix r) ->
  pidx (remove_indexes ixs st r) k = pidx st k.
Proof.
  intros N. rewrite remove_indexes_spec. destruct (existsb _ ixs) eqn:E; auto.
  apply existsb_exists in E. destruct E as [ix [Hix X]]. apply andb_true_iff in X. destruct X as [R X].
  destruct (ikey_dec k (rec_key ix r)); [|discriminate]. exfalso. exact (N ix Hix R e).
Qed.
Lemma remove_indexes_gone ixs st r ix : In ix ixs -> removable ix = true ->
  pidx (remove_indexes ixs st r) (rec_key ix r) = None.
Proof.
  intros Hix R. rewrite remove_indexes_spec.
  replace (existsb _ ixs) with true; [reflexivity|]. symmetry. apply existsb_exists. exists ix. split; [exact Hix|].
  rewrite R. destruct (ikey_dec (rec_key ix r) (rec_key ix r)); [reflexivity|contradiction].
Qed.
Lemma remove_row_st ev c ixs p r d : c_st (remove_row ev c ixs p r d) =
  let st := remove_indexes ixs (c_st c) r in if d then remove_primary st p else st.
Proof.
  unfold remove_row, remove_indexes. cbn [incr with_st c_st]. destruct d; auto. cbn [remove_primary].
  assert (X : forall st, fold_left (fun st0 ix => if removable ix then remove_secondary st0 ix r else st0) ixs (remove_primary st p)
     = remove_primary (fold_left (fun st0 ix => if removable ix then remove_secondary st0 ix r else st0) ixs st) p).
  { induction ixs as [|ix ixs IH]; intros st; cbn [fold_left]; auto. destruct (removable ix); [|apply IH].
    exact (IH (remove_secondary st ix r)). }
  exact (X (c_st c)).
Qed.
Lemma remove_row_ttl ev c ixs p r d : c_ttl (remove_row ev c ixs p r d) = c_ttl c.
Proof. reflexivity. Qed.
