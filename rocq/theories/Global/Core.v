(* What a batch of deletions and insertions does to the rows and to each index *)
From Verif.Dml Require Import Base Inv Rows.
From Verif.Global Require Import Model Spec.
Local Open Scope Z_scope.

(* pairs *)
Lemma mput_names {V} (l : list (oname * V)) : forall m, NoDup (map fst m) ->
  NoDup (map fst (fold_left (fun m x => mput keyset_dec (fst x) (snd x) m) l m)).
Proof.
  induction l as [|[n v] l IH]; intros m ND; cbn [fold_left fst snd]; [exact ND|]. apply IH. unfold mput. cbn [map fst].
  constructor.
  - intros X. apply in_map_iff in X. destruct X as ([n' v'] & E & X). cbn in E. subst n'. apply filter_In in X. destruct X as [_ X].
    cbn in X. destruct (keyset_dec n n); [discriminate|congruence].
  - clear IH. induction m as [|[n' v'] m IHm]; [constructor|]. inversion ND; subst. unfold mdel. cbn [filter fst].
    fold (mdel keyset_dec n m). destruct (keyset_dec n n'); [auto|]. cbn [map fst]. constructor; [|auto].
    intros X. apply in_map_iff in X. destruct X as ([a b] & E & X). cbn in E. subst a. apply filter_In in X. destruct X as [X _].
    apply H1. apply in_map_iff. exists (n', b). auto.
Qed.

Section Core.
Variable tb : table.
Hypothesis WT : wf_table tb.
Hypothesis Tt : tb_ttl tb = false.
Hypothesis Tc : tb_cstore tb = false.
Notation ev := (genv tb).
Notation pk := (pk_of tb).
Notation R := (rows ev).

Lemma live e : expired ev e = false.
Proof. unfold expired. cbn. rewrite Tt. reflexivity. Qed.
Lemma R_eq st q : R st q = match prow st q with Some (e, s) => Some (e, full_row tb q s) | None => None end.
Proof. unfold rows. cbn [e_fits genv]. destruct (prow st q) as [[e s]|]; [|reflexivity]. rewrite live. reflexivity. Qed.
Lemma R_same st st' : st_rows st = st_rows st' -> forall q, R st q = R st' q.
Proof. apply rows_same. Qed.

Lemma full_row_wf r : wf_row tb r -> full_row tb (pk r) r = r.
Proof.
  intros (L & Nn & Nd).
  assert (E : stored_row tb None r None = r) by (unfold stored_row; rewrite Tc; reflexivity).
  transitivity (full_row tb (pk r) (stored_row tb None r None)); [rewrite E; reflexivity|]. apply full_stored; auto.
  - intros f Hf. apply Nd. apply In_nonpk in Hf. tauto.
Qed.
Lemma R_put st r q : wf_row tb r -> R (put_primary ev st (pk r) r None 0) q = if cells_dec (pk r) q then Some (0, r) else R st q.
Proof.
  intros W. rewrite rows_put by (try reflexivity; apply live). unfold cput. destruct (cells_dec (pk r) q) as [E|N]; [|reflexivity].
  cbn [genv e_tb]. unfold stored_row. rewrite Tc. rewrite full_row_wf by exact W. reflexivity.
Qed.
Lemma R_del st p q : R (remove_primary st p) q = if cells_dec p q then None else R st q.
Proof. rewrite rows_remove. reflexivity. Qed.

Lemma read_full t p stored : pk t = p -> length t = tb_cols tb -> length p = length (tb_pk tb) -> read_row tb (nonpk tb) stored t = full_row tb p stored.
Proof.
  intros P L Lp. apply rec_ext; [rewrite full_row_length, read_row_length; exact L|]. intros f Hf. rewrite read_row_length in Hf.
  destruct (in_dec Nat.eq_dec f (nonpk tb)) as [X|X].
  - rewrite fget_full_row by exact X. apply fget_read_row_in; assumption.
  - unfold full_row. rewrite !fget_read_row_out by exact X.
    assert (Hp : In f (tb_pk tb)).
    { destruct (in_dec Nat.eq_dec f (tb_pk tb)); [assumption|]. exfalso. apply X. apply In_nonpk. split; [lia|assumption]. }
    apply (proj_eq_get _ _ (tb_pk tb)); [|exact Hp]. change (pk t = pk (key_rec tb p)). rewrite pk_key_rec by assumption. exact P.
Qed.
Lemma get_primary_eq st t : length t = tb_cols tb ->
  get_primary ev st (pk t) t (nonpk tb) = match R st (pk t) with Some (e, o) => Found e o | None => NotFound end.
Proof.
  intros L. rewrite R_eq. unfold get_primary. cbn [e_fits genv negb e_tb]. destruct (prow st (pk t)) as [[e s]|]; [|reflexivity].
  rewrite live. rewrite (read_full t (pk t)); [reflexivity|reflexivity|exact L|apply pk_of_length].
Qed.
Lemma get_primary_key st p : length p = length (tb_pk tb) ->
  get_primary ev st p (key_rec tb p) (nonpk tb) = match R st p with Some (e, o) => Found e o | None => NotFound end.
Proof.
  intros L. pose proof (get_primary_eq st (key_rec tb p) (fits_key_rec_length tb p)) as X.
  rewrite (pk_key_rec tb p WT L) in X. exact X.
Qed.
Lemma get_primary_wf st r : wf_row tb r ->
  get_primary ev st (pk r) r (nonpk tb) = match R st (pk r) with Some (e, o) => Found e o | None => NotFound end.
Proof. intros W. apply get_primary_eq. apply W. Qed.

(* ---------------- a consistent store ---------------- *)
Definition good_store (st : store) : Prop :=
  keys_ok ev st /\ forall ix, In ix (tb_indexes tb) -> sound ev st ix /\ complete_on ev st ix (fun _ => True).
Section St.
Variable st : store.
Hypothesis GS : good_store st.
Lemma R_pk q e o : R st q = Some (e, o) -> pk o = q.
Proof. intros E. exact (rows_pk ev WT st q e o (proj1 GS) E). Qed.
Lemma R_len q e o : R st q = Some (e, o) -> length o = tb_cols tb.
Proof. intros E. exact (rows_length ev st q e o E). Qed.
Lemma R_zero q e o : R st q = Some (e, o) -> e = 0.
Proof. intros E. destruct (proj1 GS _ _ _ E) as (_ & _ & Z). apply Z. exact Tt. Qed.
Lemma R_self q e o : R st q = Some (e, o) -> R st (pk o) = Some (0, o).
Proof. intros E. rewrite (R_pk _ _ _ E), E. rewrite (R_zero _ _ _ E). reflexivity. Qed.
Lemma R_wf q e o : R st q = Some (e, o) -> wf_row tb o.
Proof.
  intros E. destruct (proj1 GS _ _ _ E) as (L & N & _). split; [exact (R_len _ _ _ E)|]. split; [rewrite (R_pk _ _ _ E); exact N|].
  intros f Lf Nf. destruct (rows_nullok ev st q e o f (proj1 GS) E Lf Nf) as [X|X]; [exact X|].
  exfalso. rewrite <- (R_pk _ _ _ E) in N. assert (existsb isnull (pk o) = true); [|congruence].
  apply existsb_exists. exists (fget o f). split; [apply in_map; exact X|]. rewrite Nf. reflexivity.
Qed.
Lemma entry_row ix q e o : In ix (tb_indexes tb) -> R st q = Some (e, o) -> pidx st (rec_key ix o) = Some (0, rec_val ix o).
Proof.
  intros Hix E. pose proof (proj2 (proj2 GS ix Hix) q e o Logic.I E) as X. unfold holds in X. rewrite (R_zero _ _ _ E) in X. exact X.
Qed.
Lemma entry_sound ix cs r2 e v : In ix (tb_indexes tb) -> pidx st (ix_id ix, cs, r2) = Some (e, v) -> (ix_uniq ix = true -> r2 = []) ->
  (ix_uniq ix = false -> v = []) ->
  exists o, R st (pk o) = Some (0, o) /\ rec_key ix o = (ix_id ix, cs, r2) /\ (e, v) = (0, rec_val ix o).
Proof.
  intros Hix E U1 U2.
  set (rest := if ix_uniq ix then v else r2).
  assert (Hh : holds st ix cs rest e).
  { unfold holds, rest. destruct (ix_uniq ix); [rewrite <- (U1 eq_refl) | rewrite <- (U2 eq_refl)]; exact E. }
  destruct (proj1 (proj2 GS ix Hix) cs rest e Hh (live e) eq_refl) as (o & Ro & E1 & E2). exists o.
  split; [exact (R_self _ _ _ Ro)|]. pose proof (R_zero _ _ _ Ro) as Z. subst e.
  unfold rec_key, rec_val. rewrite E1, E2. unfold rest in *. destruct (ix_uniq ix); split; try reflexivity.
  - rewrite (U1 eq_refl). reflexivity.
  - rewrite (U2 eq_refl). reflexivity.
Qed.
Lemma pk_from_key ix o o' : In ix (tb_indexes tb) -> length o = tb_cols tb -> length o' = tb_cols tb ->
  rec_key ix o = rec_key ix o' -> rec_val ix o = rec_val ix o' -> pk o = pk o'.
Proof.
  intros Hix L L' E1 E2. unfold rec_key in E1. unfold rec_val in E2. injection E1 as E1 E3.
  rewrite <- (entry_pk_row tb ix o WT Hix L), <- (entry_pk_row tb ix o' WT Hix L').
  rewrite E1. f_equal. destruct (ix_uniq ix); assumption.
Qed.
(* two rows with the same index key are the same row *)
Lemma key_row ix q e o q' e' o' : In ix (tb_indexes tb) -> R st q = Some (e, o) -> R st q' = Some (e', o') ->
  rec_key ix o = rec_key ix o' -> o = o' /\ q = q'.
Proof.
  intros Hix E E' K. pose proof (entry_row ix _ _ _ Hix E) as X. pose proof (entry_row ix _ _ _ Hix E') as X'. rewrite K, X' in X.
  injection X as X. assert (P : pk o = pk o') by (apply (pk_from_key ix); eauto using R_len).
  rewrite (R_pk _ _ _ E), (R_pk _ _ _ E') in P. subst q'. rewrite E in E'. injection E' as _ E'. auto.
Qed.
Lemma uniq_row ix q e o q' e' o' : In ix (tb_indexes tb) -> ix_uniq ix = true -> R st q = Some (e, o) -> R st q' = Some (e', o') ->
  proj o (ix_fields ix) = proj o' (ix_fields ix) -> o = o' /\ q = q'.
Proof. intros Hix U E E' K. apply (key_row ix _ e _ _ e'); auto. unfold rec_key. rewrite U, K. reflexivity. Qed.
(* reading a UNIQUE index *)
Lemma get_secondary_eq ix r : In ix (tb_indexes tb) -> ix_uniq ix = true -> length r = tb_cols tb ->
  (get_secondary ev st ix r = NotFound /\ pidx st (rec_key ix r) = None /\
     forall q e o, R st q = Some (e, o) -> proj r (ix_fields ix) <> proj o (ix_fields ix)) \/
  (exists o, R st (pk o) = Some (0, o) /\ proj r (ix_fields ix) = proj o (ix_fields ix) /\
     get_secondary ev st ix r = Found 0 (set_all r (ix_rest ix) (proj o (ix_rest ix))) /\
     pk (set_all r (ix_rest ix) (proj o (ix_rest ix))) = pk o /\ pidx st (rec_key ix r) = Some (0, rec_val ix o)).
Proof.
  intros Hix U L. unfold get_secondary, rec_key. rewrite U. destruct (pidx st (ix_id ix, proj r (ix_fields ix), [])) as [[e rest]|] eqn:E.
  - right. rewrite live. cbn [e_fits genv negb].
    destruct (entry_sound ix _ _ _ _ Hix E (fun _ => eq_refl)) as (o & Ro & K & V); [congruence|].
    injection V as V1 V2. subst e. exists o. split; [exact Ro|]. unfold rec_key in K. injection K as K _.
    split; [symmetry; exact K|]. unfold rec_val in V2 at 1. rewrite U in V2. subst rest. split; [reflexivity|].
    split; [|unfold rec_val; rewrite U; reflexivity]. apply pk_set_rest; auto.
  - left. split; [reflexivity|]. split; [reflexivity|]. intros q e o Ro K. pose proof (entry_row ix _ _ _ Hix Ro) as X. unfold rec_key in X.
    rewrite U, <- K, E in X. discriminate.
Qed.
End St.

(* ---------------- the rows ---------------- *)
Definition pks (l : list rec) : list (list cell) := map pk l.
Lemma del_primaries_index want aff ps : forall st, st_index (fst (del_primaries tb want aff st ps)) = st_index st.
Proof.
  induction ps as [|p ps IH]; intros st; cbn [del_primaries]; [reflexivity|].
  assert (X : st_index (fst (del_primary tb want aff st p)) = st_index st).
  { unfold del_primary. destruct (get_primary _ _ _ _ _); try reflexivity. destruct (want _); [|reflexivity]. destruct aff; reflexivity. }
  destruct (del_primary tb want aff st p) as [st1 o]. cbn [fst] in X. specialize (IH st1).
  destruct (del_primaries tb want aff st1 ps) as [st2 os]. cbn [fst] in IH |- *. congruence.
Qed.
(* the rows returned are the wanted rows of the keys *)
Lemma del_primaries_spec want aff ps : forall st, keys_ok ev st -> Forall (fun p => length p = length (tb_pk tb)) ps ->
  (aff = false -> NoDup ps) ->
  let '(st', os) := del_primaries tb want aff st ps in
  (forall o, In o os <-> In (pk o) ps /\ (exists e, R st (pk o) = Some (e, o)) /\ want o = true) /\
  NoDup (pks os) /\
  (forall q, R st' q = if aff then (if in_dec cells_dec q (pks os) then None else R st q) else R st q).
Proof.
  induction ps as [|p ps IH]; intros st K F ND; cbn [del_primaries].
  - split; [intros o; cbn [In]; tauto|]. split; [constructor|]. intros q. cbn. destruct aff; reflexivity.
  - inversion F as [|? ? Lp F']; subst. unfold del_primary. rewrite get_primary_key by exact Lp.
    destruct (R st p) as [[e o]|] eqn:E.
    + assert (Po : pk o = p) by exact (rows_pk ev WT st p e o K E).
      destruct (want o) eqn:W.
      * set (st1 := if aff then remove_primary st p else st).
        assert (R1 : forall q, R st1 q = if aff then (if cells_dec p q then None else R st q) else R st q).
        { intros q. unfold st1. destruct aff; [apply R_del|reflexivity]. }
        assert (K1 : keys_ok ev st1).
        { intros q e' o' X. rewrite R1 in X. destruct aff; [destruct (cells_dec p q); [discriminate|]|]; exact (K _ _ _ X). }
        specialize (IH st1 K1 F'). destruct (del_primaries tb want aff st1 ps) as [st2 os].
        destruct IH as (I1 & I2 & I3). { intros A. specialize (ND A). inversion ND; assumption. }
        assert (Nin : ~ In p (pks os)).
        { intros X. apply in_map_iff in X. destruct X as (o2 & E2 & X). apply I1 in X. destruct X as (Xa & (e2 & Xb) & _). rewrite R1, E2 in Xb.
          destruct aff; [destruct (cells_dec p p); [discriminate|congruence]|]. specialize (ND eq_refl). inversion ND. congruence. }
        cbn [app]. split; [|split].
        -- intros o2. cbn [In]. rewrite I1, R1. split.
           ++ intros [->|(A & (e2 & B) & C)]; [split; [left; congruence|]; split; [exists e; rewrite Po; exact E|exact W]|].
              split; [right; exact A|]. split; [|exact C]. exists e2. destruct aff; [destruct (cells_dec p (pk o2)); [discriminate|]|]; exact B.
           ++ intros ([A|A] & (e2 & B) & C).
              ** left. rewrite <- A, E in B. congruence.
              ** destruct (cells_dec p (pk o2)) as [Q|Q]; [left; rewrite <- Q, E in B; congruence|].
                 right. split; [exact A|]. split; [|exact C]. exists e2. destruct aff; exact B.
        -- cbn [pks map]. rewrite Po. constructor; assumption.
        -- intros q. rewrite I3, R1. destruct aff; [|reflexivity]. destruct (in_dec cells_dec q (pks os)) as [X|X].
           ++ destruct (in_dec cells_dec q (pks (o :: os))) as [Y|Y]; [reflexivity|]. exfalso. apply Y. right. exact X.
           ++ destruct (cells_dec p q) as [Q|Q]; destruct (in_dec cells_dec q (pks (o :: os))) as [Y|Y]; try reflexivity.
              ** exfalso. apply Y. left. congruence.
              ** exfalso. destruct Y as [Y|Y]; [congruence|contradiction].
      * specialize (IH st K F'). destruct (del_primaries tb want aff st ps) as [st2 os].
        destruct IH as (I1 & I2 & I3). { intros A. specialize (ND A). inversion ND; assumption. }
        cbn [app]. split; [|split; assumption]. intros o2. rewrite I1. cbn [In]. split.
        -- intros (A & B). split; [right; exact A|exact B].
        -- intros ([A|A] & (e2 & B) & C); [rewrite <- A, E in B; congruence|]. split; [exact A|]. split; [exists e2; exact B|exact C].
    + specialize (IH st K F'). destruct (del_primaries tb want aff st ps) as [st2 os].
      destruct IH as (I1 & I2 & I3). { intros A. specialize (ND A). inversion ND; assumption. }
      cbn [app]. split; [|split; assumption]. intros o2. rewrite I1. cbn [In]. split.
      * intros (A & B). split; [right; exact A|exact B].
      * intros ([A|A] & (e2 & B) & C); [rewrite <- A, E in B; congruence|]. split; [exact A|]. split; [exists e2; exact B|exact C].
Qed.

(* a row with this key *)
Definition with_pk (l : list rec) (q : list cell) : option rec := find (fun r => if cells_dec (pk r) q then true else false) l.
Lemma with_pk_some l q r : with_pk l q = Some r -> In r l /\ pk r = q.
Proof. intros X. apply find_some in X. destruct X as [X Y]. split; [exact X|]. destruct (cells_dec (pk r) q); [assumption|discriminate]. Qed.
Lemma with_pk_none l q : with_pk l q = None <-> ~ In q (pks l).
Proof.
  unfold with_pk. split.
  - intros X Y. apply in_map_iff in Y. destruct Y as (r & E & Y). pose proof (find_none _ _ X r Y) as Z. cbn in Z. destruct (cells_dec (pk r) q); congruence.
  - intros N. destruct (find _ l) as [r|] eqn:E; [|reflexivity]. exfalso. apply find_some in E. destruct E as [E1 E2].
    apply N. apply in_map_iff. exists r. split; [destruct (cells_dec (pk r) q); [assumption|discriminate]|exact E1].
Qed.
Lemma with_pk_in l r : NoDup (pks l) -> In r l -> with_pk l (pk r) = Some r.
Proof.
  intros ND X. induction l as [|a l IH]; [inversion X|]. inversion ND; subst. unfold with_pk. cbn [find]. destruct (cells_dec (pk a) (pk r)) as [E|N].
  - destruct X as [->|X]; [reflexivity|]. exfalso. apply H1. rewrite E. apply in_map. exact X.
  - destruct X as [->|X]; [congruence|]. apply IH; assumption.
Qed.

Lemma ins_primaries_index aff l : forall st st', ofold (ins_primary tb aff) l st = Some st' -> st_index st' = st_index st.
Proof.
  induction l as [|r l IH]; intros st st' X; cbn [ofold] in X; [congruence|].
  destruct (ins_primary tb aff st r) as [st1|] eqn:E; [|discriminate]. rewrite (IH _ _ X).
  unfold ins_primary in E. destruct (encode_pk tb r); [|discriminate].
  destruct aff; [destruct (get_primary _ _ _ _ _); try discriminate|]; injection E as <-; reflexivity.
Qed.
Lemma ins_primary_eq aff st r : wf_row tb r ->
  ins_primary tb aff st r = if aff then match R st (pk r) with Some _ => None | None => Some (put_primary ev st (pk r) r None 0) end
                            else Some (put_primary ev st (pk r) r None 0).
Proof.
  intros W. unfold ins_primary.
  assert (E : encode_pk tb r = Some (pk r)) by (apply encode_pk_some; split; [reflexivity|apply W]). rewrite E.
  destruct aff; [|reflexivity]. rewrite get_primary_wf by exact W. destruct (R st (pk r)) as [[e o]|]; reflexivity.
Qed.
Lemma ins_primaries_spec aff l : forall st, Forall (wf_row tb) l ->
  (aff = false -> NoDup (pks l)) ->
  match ofold (ins_primary tb aff) l st with
  | Some st' => NoDup (pks l) /\ (aff = true -> forall r, In r l -> R st (pk r) = None) /\
      forall q, R st' q = match with_pk l q with Some r => Some (0, r) | None => R st q end
  | None => aff = true /\ (~ NoDup (pks l) \/ exists r, In r l /\ R st (pk r) <> None)
  end.
Proof.
  induction l as [|r l IH]; intros st F ND; cbn [ofold].
  - split; [constructor|]. split; [intros _ r []|]. reflexivity.
  - inversion F as [|? ? W F']; subst. rewrite ins_primary_eq by exact W.
    destruct (if aff then _ else _) as [st1|] eqn:E.
    + assert (E1 : st1 = put_primary ev st (pk r) r None 0 /\ (aff = true -> R st (pk r) = None)).
      { destruct aff; [destruct (R st (pk r)) eqn:E2; [discriminate|]|]; injection E as <-; auto. discriminate || (split; [reflexivity|discriminate]). }
      destruct E1 as [-> Fr].
      specialize (IH (put_primary ev st (pk r) r None 0) F').
      destruct (ofold _ l _) as [st2|] eqn:E2.
      * destruct IH as (I1 & I2 & I3). { intros A. specialize (ND A). inversion ND; assumption. }
        assert (Nin : ~ In (pk r) (pks l)).
        { intros X. destruct aff; [|specialize (ND eq_refl); inversion ND; contradiction].
          apply in_map_iff in X. destruct X as (r2 & E3 & X). specialize (I2 eq_refl r2 X). rewrite R_put in I2 by exact W.
          rewrite E3 in I2. destruct (cells_dec (pk r) (pk r)); [discriminate|congruence]. }
        split; [constructor; assumption|]. split.
        -- intros A r2 [<-|X]; [exact (Fr A)|]. specialize (I2 A r2 X). rewrite R_put in I2 by exact W.
           destruct (cells_dec (pk r) (pk r2)); [discriminate|exact I2].
        -- intros q. rewrite I3, R_put by exact W. unfold with_pk. cbn [find]. destruct (cells_dec (pk r) q) as [Q|Q]; [|reflexivity].
           fold (with_pk l q). destruct (with_pk l q) eqn:Y; [|reflexivity]. apply with_pk_some in Y. exfalso. apply Nin. rewrite Q, <- (proj2 Y). apply in_map. tauto.
      * destruct IH as (A & [X|(r2 & X & Y)]).
        -- intros A. specialize (ND A). inversion ND; assumption.
        -- split; [exact A|]. left. intros Z. inversion Z. contradiction.
        -- split; [exact A|]. rewrite R_put in Y by exact W. destruct (cells_dec (pk r) (pk r2)) as [Q|Q].
           ++ left. intros Z. inversion Z. apply H1. rewrite Q. apply in_map. exact X.
           ++ right. exists r2. split; [right; exact X|exact Y].
    + destruct aff; [|discriminate]. split; [reflexivity|]. right. exists r. split; [left; reflexivity|]. destruct (R st (pk r)); congruence.
Qed.

(* ---------------- one index ---------------- *)
Definition keyin (ix : index) (k : ikey) (l : list rec) : Prop := exists r, In r l /\ k = rec_key ix r.
Lemma keyin_dec ix k l : {keyin ix k l} + {~ keyin ix k l}.
Proof.
  destruct (in_dec ikey_dec k (map (rec_key ix) l)) as [X|X]; [left|right].
  - apply in_map_iff in X. destruct X as (r & E & X). exists r. auto.
  - intros (r & Y & E). apply X. apply in_map_iff. exists r. auto.
Qed.
(* what index records become when D is deleted and I inserted *)
Definition after (ix : index) (D Il : list rec) (st st' : store) : Prop :=
  st_rows st' = st_rows st /\
  forall k v, pidx st' k = Some v <->
    (exists r, In r Il /\ k = rec_key ix r /\ v = (0, rec_val ix r)) \/
    (~ keyin ix k Il /\ ~ keyin ix k D /\ pidx st k = Some v).

(* the entries of st are those of the good store st0, or were removed *)
Lemma del_index_eq st0 ix st d : good_store st0 -> In ix (tb_indexes tb) -> R st0 (pk d) = Some (0, d) ->
  (forall k v, fst (fst k) = ix_id ix -> pidx st k = Some v -> pidx st0 k = Some v) ->
  del_index tb ix st d = remove_secondary st ix d.
Proof.
  intros G Hix Rd Sub. unfold del_index, get_sec. destruct (ix_uniq ix) eqn:U; [|reflexivity].
  unfold get_secondary. destruct (pidx st (ix_id ix, proj d (ix_fields ix), [])) as [[e rest]|] eqn:E; [|reflexivity].
  rewrite live. cbn [e_fits genv negb]. apply Sub in E; [|reflexivity].
  pose proof (entry_row st0 G ix _ _ _ Hix Rd) as X. unfold rec_key, rec_val in X. rewrite U, E in X. injection X as X1 X2.
  unfold remove_secondary, rec_key. rewrite U. do 2 f_equal. rewrite X2.
  assert (S0 : set_all d (ix_rest ix) (proj d (ix_rest ix)) = d).
  { apply rec_ext; [apply set_all_length|]. intros f Hf. rewrite set_all_length in Hf. destruct (in_dec Nat.eq_dec f (ix_rest ix)) as [Y|Y].
    - apply fget_set_all_proj; assumption.
    - apply fget_set_all_out. exact Y. }
  rewrite S0. reflexivity.
Qed.
Lemma del_index_all st0 ix D : good_store st0 -> In ix (tb_indexes tb) -> (forall d, In d D -> R st0 (pk d) = Some (0, d)) ->
  forall st, (forall k v, fst (fst k) = ix_id ix -> pidx st k = Some v -> pidx st0 k = Some v) ->
  st_rows (fold_left (del_index tb ix) D st) = st_rows st /\
  forall k v, pidx (fold_left (del_index tb ix) D st) k = Some v <-> ~ keyin ix k D /\ pidx st k = Some v.
Proof.
  intros G Hix. induction D as [|d D IH]; intros RD st Sub; cbn [fold_left].
  - split; [reflexivity|]. intros k v. split; [intros X; split; [intros (r & [] & _)|exact X]|tauto].
  - rewrite (del_index_eq st0) by (auto; apply RD; left; reflexivity).
    destruct (IH (fun d' X => RD d' (or_intror X)) (remove_secondary st ix d)) as [I1 I2].
    { intros k v E X. rewrite pidx_remove in X. destruct (ikey_dec k (rec_key ix d)); [discriminate|]. exact (Sub k v E X). }
    split; [rewrite I1; reflexivity|]. intros k v. rewrite I2, pidx_remove. split.
    + intros [A B]. destruct (ikey_dec k (rec_key ix d)) as [Q|Q]; [discriminate|]. split; [|exact B].
      intros (r & [<-|X] & E); [congruence|]. apply A. exists r. auto.
    + intros [A B]. split; [intros (r & X & E); apply A; exists r; split; [right; exact X|exact E]|].
      destruct (ikey_dec k (rec_key ix d)) as [Q|Q]; [|exact B]. exfalso. apply A. exists d. split; [left; reflexivity|exact Q].
Qed.

Lemma ins_index_eq ix st r :
  ins_index tb ix st r = if ix_uniq ix then match pidx st (rec_key ix r) with Some _ => None | None => Some (put_secondary st ix r 0) end
                         else Some (put_secondary st ix r 0).
Proof.
  unfold ins_index, get_sec. destruct (ix_uniq ix) eqn:U; [|reflexivity]. unfold get_secondary, rec_key. rewrite U.
  destruct (pidx st _) as [[e rest]|]; [|reflexivity]. rewrite live. reflexivity.
Qed.
Definition keys_distinct (ix : index) (l : list rec) : Prop := NoDup (map (rec_key ix) l).
Lemma rec_val_key ix r : ix_uniq ix = false -> rec_val ix r = [].
Proof. unfold rec_val. intros ->. reflexivity. Qed.
Lemma ins_index_all ix l : forall st,
  match ofold (ins_index tb ix) l st with
  | Some st' => st_rows st' = st_rows st /\
      (ix_uniq ix = true -> keys_distinct ix l /\ forall r, In r l -> pidx st (rec_key ix r) = None) /\
      forall k v, pidx st' k = Some v <->
        (exists r, In r l /\ k = rec_key ix r /\ v = (0, rec_val ix r)) \/ (~ keyin ix k l /\ pidx st k = Some v)
  | None => ix_uniq ix = true /\ (~ keys_distinct ix l \/ exists r, In r l /\ pidx st (rec_key ix r) <> None)
  end.
Proof.
  induction l as [|r l IH]; intros st; cbn [ofold].
  - split; [reflexivity|]. split; [intros _; split; [constructor|intros r []]|]. intros k v. split.
    + intros X. right. split; [intros (r & [] & _)|exact X].
    + intros [(r & [] & _)|[_ X]]; exact X.
  - rewrite ins_index_eq. destruct (if ix_uniq ix then _ else _) as [st1|] eqn:E.
    + assert (E1 : st1 = put_secondary st ix r 0 /\ (ix_uniq ix = true -> pidx st (rec_key ix r) = None)).
      { destruct (ix_uniq ix); [destruct (pidx st (rec_key ix r)) eqn:E2; [discriminate|]|]; injection E as <-; split; try reflexivity; congruence. }
      destruct E1 as [-> Fr]. specialize (IH (put_secondary st ix r 0)).
      destruct (ofold _ l _) as [st2|].
      * destruct IH as (I1 & I2 & I3). split; [rewrite I1; reflexivity|].
        assert (Un : ix_uniq ix = true -> keys_distinct ix (r :: l) /\ forall r0, In r0 (r :: l) -> pidx st (rec_key ix r0) = None).
        { intros U. destruct (I2 U) as [J1 J2]. split.
          - constructor; [|exact J1]. intros X. apply in_map_iff in X. destruct X as (r2 & E2 & X). specialize (J2 r2 X).
            rewrite pidx_put, E2 in J2. destruct (ikey_dec (rec_key ix r) (rec_key ix r)); [discriminate|congruence].
          - intros r2 [<-|X]; [exact (Fr U)|]. specialize (J2 r2 X). rewrite pidx_put in J2. destruct (ikey_dec (rec_key ix r2) (rec_key ix r)); [discriminate|exact J2]. }
        split; [exact Un|]. intros k v. rewrite I3, pidx_put. split.
        -- intros [(r2 & X & Y)|[X Y]]; [left; exists r2; split; [right; exact X|exact Y]|].
           destruct (ikey_dec k (rec_key ix r)) as [Q|Q].
           ++ left. exists r. split; [left; reflexivity|]. split; [exact Q|congruence].
           ++ right. split; [|exact Y]. intros (r2 & [<-|Z] & Ez); [congruence|]. apply X. exists r2. auto.
        -- intros [(r2 & [<-|X] & Ek & Ev)|[X Y]].
           ++ destruct (keyin_dec ix k l) as [(r3 & Z & Ez)|N].
              ** left. exists r3. split; [exact Z|]. split; [exact Ez|]. rewrite Ev. f_equal. destruct (ix_uniq ix) eqn:U.
                 --- exfalso. destruct (Un eq_refl) as [ND _]. inversion ND. apply H1. apply in_map_iff. exists r3. split; [congruence|exact Z].
                 --- rewrite !rec_val_key by exact U. reflexivity.
              ** right. split; [exact N|]. destruct (ikey_dec k (rec_key ix r)); [congruence|contradiction].
           ++ left. exists r2. auto.
           ++ right. split; [intros (r2 & Z & Ez); apply X; exists r2; split; [right; exact Z|exact Ez]|].
              destruct (ikey_dec k (rec_key ix r)) as [Q|Q]; [|exact Y]. exfalso. apply X. exists r. split; [left; reflexivity|exact Q].
      * destruct IH as (U & [X|(r2 & X & Y)]).
        -- split; [exact U|]. left. intros Z. inversion Z. contradiction.
        -- split; [exact U|]. rewrite pidx_put in Y. destruct (ikey_dec (rec_key ix r2) (rec_key ix r)) as [Q|Q].
           ++ left. intros Z. inversion Z. apply H1. rewrite <- Q. apply in_map. exact X.
           ++ right. exists r2. split; [right; exact X|exact Y].
    + destruct (ix_uniq ix); [|discriminate]. split; [reflexivity|]. right. exists r. split; [left; reflexivity|]. destruct (pidx st (rec_key ix r)); congruence.
Qed.
End Core.
