(* Equal hash keys mean equal key columns. *)
From Coq Require Import List ZArith Bool Arith Lia.
From Verif Require Import Common.Bytes Common.KV Key.Model Key.Spec Key.ProofsKey Key.ProofsTop.
From Verif Require Import Join.Model Join.Spec.
From Verif Require Cut.Values Expr.Value.
Import ListNotations.
Local Open Scope Z_scope.

Lemma ctype_eqb_eq a b : ctype_eqb a b = true <-> a = b.
Proof. unfold ctype_eqb. destruct (ctype_dec a b); split; congruence. Qed.
Lemma ctype_eqb_refl a : ctype_eqb a a = true.
Proof. now apply ctype_eqb_eq. Qed.
Lemma ctype_eqb_sym a b : ctype_eqb a b = ctype_eqb b a.
Proof. unfold ctype_eqb. destruct (ctype_dec a b), (ctype_dec b a); congruence. Qed.

Lemma bcompare_sym_eq a b : bcompare a b = Eq <-> bcompare b a = Eq.
Proof. rewrite !bcompare_eq. split; congruence. Qed.
Lemma vc_sym t v w : value_compare t v w = Eq -> value_compare t w v = Eq.
Proof.
  destruct v as [x|x], w as [y|y]; destruct t; cbn; try discriminate;
    first [rewrite !Z.compare_eq_iff; congruence | rewrite !bcompare_eq; congruence].
Qed.
Lemma veqb_eq v w : veqb v w = true <-> v = w.
Proof.
  destruct v, w; cbn; rewrite ?Z.eqb_eq, ?beqb_eq; split; try congruence; discriminate.
Qed.

Lemma eq_fn_spec a b x y : eq_fn a b x y = true <-> equal_values a b x y.
Proof.
  unfold eq_fn, equal_values. destruct x as [v|], y as [w|].
  - destruct (ctype_eqb a b).
    + split.
      * intros E. exists v, w. repeat split; auto. destruct (value_compare a v w); congruence.
      * intros (v' & w' & [= <-] & [= <-] & E). now rewrite E.
    + rewrite veqb_eq. split.
      * intros E. exists v, w. auto.
      * intros (v' & w' & [= <-] & [= <-] & E). exact E.
  - split; [discriminate|]. intros (? & ? & _ & E & _). discriminate.
  - split; [discriminate|]. intros (? & ? & E & _). discriminate.
  - split; [discriminate|]. intros (? & ? & E & _). discriminate.
Qed.
Lemma equal_values_sym a b x y : equal_values a b x y -> equal_values b a y x.
Proof.
  intros (v & w & -> & -> & E). exists w, v. repeat split; auto. rewrite ctype_eqb_sym.
  destruct (ctype_eqb a b) eqn:T; [|auto]. apply ctype_eqb_eq in T as ->. now apply vc_sym.
Qed.

Lemma cond_true_spec r c : cond_true r c = true <-> holds r c.
Proof.
  destruct c as [a b|ps|f]; cbn [cond_true holds].
  - unfold eq_ops. rewrite eq_fn_spec. destruct a, b; reflexivity.
  - rewrite forallb_forall, Forall_forall. split; intros H0 p Hp; specialize (H0 p Hp);
      unfold eq_ops in *; rewrite eq_fn_spec in *; destruct p as [[] []]; exact H0.
  - destruct (f r) as [[]|]; split; congruence.
Qed.
Lemma filter_spec cs r : is_satisfy_filter cs r = true <-> Forall (holds r) cs.
Proof.
  unfold is_satisfy_filter. rewrite forallb_forall, Forall_forall. split; intros H0 c Hc; apply cond_true_spec; auto.
Qed.

(* ---- the conversion of key values ---- *)

Lemma to_string_no_nul z : no_nul (Expr.Value.to_string z).
Proof.
  unfold no_nul. eapply Forall_impl; [|apply Cut.Values.to_string_bytes]. cbn. intros c Hc. lia.
Qed.

Lemma integer_vnum t v : integer t = true -> value_ok t v -> exists z, v = VNum z /\ int_val_ok t z.
Proof. destruct v as [z|s]; destruct t; cbn; try discriminate; intros _ H0; try contradiction; eauto. Qed.

Lemma int_widen a z : is_signed a = true -> int_val_ok a z -> int_val_ok INT64 z.
Proof. destruct a; cbn; try discriminate; intros _; unfold int_val_ok; cbn [int_range]; lia. Qed.
Lemma uint_widen a z : is_uint a = true -> int_val_ok a z -> int_val_ok UINT64 z.
Proof. destruct a; cbn; try discriminate; intros _; unfold int_val_ok; cbn [int_range]; lia. Qed.

Lemma cast_ok a b v : comparable a b -> value_ok a v -> value_ok (cast_type a b) (cast_to a (cast_type a b) v).
Proof.
  intros [<-|[Ia Ib]] Hv; unfold cast_type.
  - rewrite ctype_eqb_refl. destruct a, v; cbn in Hv |- *; try contradiction; auto.
  - destruct (ctype_eqb a b) eqn:E.
    + destruct a, v; cbn in Hv, Ia |- *; try contradiction; try discriminate; auto.
    + destruct (integer_vnum a v Ia Hv) as (z & -> & Hz).
      destruct (is_signed a && is_signed b) eqn:S1.
      { apply andb_prop in S1 as [S1 _]. exact (int_widen a z S1 Hz). }
      destruct (is_uint a && is_uint b) eqn:S2.
      { apply andb_prop in S2 as [S2 _]. exact (uint_widen a z S2 Hz). }
      cbn. apply to_string_no_nul.
Qed.
Lemma cast_type_sym a b : cast_type a b = cast_type b a.
Proof.
  unfold cast_type. rewrite (ctype_eqb_sym b a), (andb_comm (is_signed b)), (andb_comm (is_uint b)).
  destruct (ctype_eqb a b) eqn:E; [apply ctype_eqb_eq in E as ->|]; reflexivity.
Qed.
Lemma comparable_sym a b : comparable a b -> comparable b a.
Proof. intros [->|[A B]]; [left|right]; auto. Qed.
Lemma cast_ok2 a b v : comparable a b -> value_ok b v -> value_ok (cast_type a b) (cast_to b (cast_type a b) v).
Proof. intros C Hv. rewrite cast_type_sym. apply cast_ok; [now apply comparable_sym|exact Hv]. Qed.

Lemma cast_equal a b v w : comparable a b -> value_ok a v -> value_ok b w ->
  (value_compare (cast_type a b) (cast_to a (cast_type a b) v) (cast_to b (cast_type a b) w) = Eq <->
   equal_values a b (Some v) (Some w)).
Proof.
  intros C Hv Hw.
  assert (ES : equal_values a b (Some v) (Some w) <-> if ctype_eqb a b then value_compare a v w = Eq else v = w).
  { split; [intros (v' & w' & [= <-] & [= <-] & E); exact E|]. intros E. exists v, w. auto. }
  rewrite ES. clear ES. unfold cast_type. destruct (ctype_eqb a b) eqn:E.
  - apply ctype_eqb_eq in E as <-.
    assert (K : forall u, value_ok a u -> cast_to a a u = u) by (intros [z|s]; destruct a; cbn; tauto || auto).
    rewrite !K by assumption. reflexivity.
  - destruct C as [<-|[Ia Ib]]; [rewrite ctype_eqb_refl in E; discriminate|].
    destruct (integer_vnum a v Ia Hv) as (x & -> & Hx), (integer_vnum b w Ib Hw) as (y & -> & Hy).
    assert (X : VNum x = VNum y <-> x = y) by (split; congruence).
    destruct (is_signed a && is_signed b); [cbn; rewrite Z.compare_eq_iff, X; reflexivity|].
    destruct (is_uint a && is_uint b); [cbn; rewrite Z.compare_eq_iff, X; reflexivity|].
    cbn. rewrite bcompare_eq, X. split; [apply Cut.Values.to_string_inj|congruence].
Qed.

Lemma as_text_cast a b : comparable a b -> as_text a b = true <-> cast_type a b = STRING.
Proof.
  intros C. unfold as_text, cast_type. destruct (ctype_eqb a b) eqn:E.
  - apply ctype_eqb_eq in E as <-. destruct a; cbn; split; congruence.
  - destruct C as [<-|[Ia Ib]]; [rewrite ctype_eqb_refl in E; discriminate|].
    destruct (is_signed a && is_signed b) eqn:S1; [destruct a; cbn in *; split; congruence|].
    destruct (is_uint a && is_uint b) eqn:S2; [destruct a; cbn in *; split; congruence|].
    destruct a; cbn; split; congruence.
Qed.

(* ---- keys of rows ---- *)

Definition okeys (ps : list (slot * slot)) (o : row) : list (option value) :=
  map (fun p => option_map (cast_to (s_type (fst p)) (cast_type (s_type (fst p)) (s_type (snd p)))) (col o (fst p))) ps.
Definition ikeys (ps : list (slot * slot)) (i : row) : list (option value) :=
  map (fun p => option_map (cast_to (s_type (snd p)) (cast_type (s_type (fst p)) (s_type (snd p)))) (col i (snd p))) ps.
Definition key_types_ok (ps : list (slot * slot)) : Prop := Forall (fun p => comparable (s_type (fst p)) (s_type (snd p))) ps.

Lemma outer_key_cenc ps o : key_types_ok ps -> Forall (fun p => typed (fst p) o) ps -> outer_key ps o = cenc (cast_types ps) (okeys ps o).
Proof.
  unfold outer_key, key_types_ok, okeys, cast_types. induction ps as [|[l r] ps IH]; intros K T; [reflexivity|].
  inversion K; inversion T; subst. cbn [map encode_hash_key cenc fst snd option_map] in *. rewrite IH by assumption.
  destruct (col o l) as [v|] eqn:E; [|reflexivity]. cbn [option_map]. rewrite encode_field_fenc; [reflexivity|].
  apply cast_ok; auto.
Qed.
Lemma inner_key_cenc ps i : key_types_ok ps -> Forall (fun p => typed (snd p) i) ps -> inner_key ps i = cenc (cast_types ps) (ikeys ps i).
Proof.
  unfold inner_key, key_types_ok, ikeys, cast_types. induction ps as [|[l r] ps IH]; intros K T; [reflexivity|].
  inversion K; inversion T; subst. cbn [map encode_hash_key cenc fst snd option_map] in *. rewrite IH by assumption.
  destruct (col i r) as [v|] eqn:E; [|reflexivity]. cbn [option_map]. rewrite encode_field_fenc; [reflexivity|].
  apply cast_ok2; auto.
Qed.

Lemma okeys_typed ps o : key_types_ok ps -> Forall (fun p => typed (fst p) o) ps ->
  Forall2 (fun t x => forall v, x = Some v -> value_ok t v) (cast_types ps) (okeys ps o).
Proof.
  unfold key_types_ok. induction ps as [|[l r] ps IH]; intros K T; cbn; constructor; inversion K; inversion T; subst; auto.
  cbn [fst snd] in *. intros v E. destruct (col o l) as [u|] eqn:C; [|discriminate]. injection E as <-. apply cast_ok; auto.
Qed.
Lemma ikeys_typed ps i : key_types_ok ps -> Forall (fun p => typed (snd p) i) ps ->
  Forall2 (fun t x => forall v, x = Some v -> value_ok t v) (cast_types ps) (ikeys ps i).
Proof.
  unfold key_types_ok. induction ps as [|[l r] ps IH]; intros K T; cbn; constructor; inversion K; inversion T; subst; auto.
  cbn [fst snd] in *. intros v E. destruct (col i r) as [u|] eqn:C; [|discriminate]. injection E as <-. apply cast_ok2; auto.
Qed.

Definition pair_equal (o i : row) (p : slot * slot) : Prop :=
  equal_values (s_type (fst p)) (s_type (snd p)) (col o (fst p)) (col i (snd p)).

(* without NULLs *)
Lemma keys_full ps o i : key_types_ok ps -> Forall (fun p => typed (fst p) o /\ typed (snd p) i) ps ->
  Forall (fun p => col o (fst p) <> None /\ col i (snd p) <> None) ps ->
  (outer_key ps o = inner_key ps i <-> Forall (pair_equal o i) ps).
Proof.
  intros K T N.
  assert (To : Forall (fun p => typed (fst p) o) ps) by (eapply Forall_impl; [|exact T]; cbn; tauto).
  assert (Ti : Forall (fun p => typed (snd p) i) ps) by (eapply Forall_impl; [|exact T]; cbn; tauto).
  rewrite outer_key_cenc, inner_key_cenc by assumption.
  pose proof (cenc_compare (cast_types ps) (okeys ps o) (ikeys ps i) [] [] (okeys_typed _ _ K To) (ikeys_typed _ _ K Ti)) as C.
  rewrite !app_nil_r in C. cbn [bcompare] in C.
  assert (NP : null_pattern_compare (okeys ps o) (ikeys ps i) = Eq).
  { clear -N. induction N as [|[l r] ps [A B] N IH]; [reflexivity|]. cbn [fst snd] in *. cbn [okeys ikeys map null_pattern_compare fst snd].
    destruct (col o l); [|congruence]. destruct (col i r); [|congruence]. exact IH. }
  specialize (C NP). rewrite <- bcompare_eq, C.
  transitivity (nonnull_compare (cast_types ps) (okeys ps o) (ikeys ps i) = Eq).
  { destruct (nonnull_compare _ _ _); split; congruence. }
  clear -K T N. unfold key_types_ok in K. induction ps as [|[l r] ps IH]; [split; [constructor|reflexivity]|].
  inversion K; inversion T; inversion N; subst. specialize (IH ltac:(assumption) ltac:(assumption) ltac:(assumption)).
  rewrite Forall_cons_iff, <- IH. clear IH. unfold pair_equal. cbn [cast_types okeys ikeys map nonnull_compare fst snd] in *.
  destruct (col o l) as [v|] eqn:A; [|exfalso; tauto]. destruct (col i r) as [w|] eqn:B; [|exfalso; tauto].
  cbn [option_map]. rewrite <- cast_equal by (try assumption; match goal with X : typed _ _ /\ _ |- _ => apply X end; assumption).
  fold (cast_types ps) (okeys ps o) (ikeys ps i).
  destruct (value_compare _ _ _); (split; [intros X|intros [X Y]]); try discriminate; auto.
Qed.

(* ---- a NULL on the outer side ---- *)

Fixpoint zeros (l : list Z) : nat := match l with [] => O | x :: q => ((if (x =? 0)%Z then 1 else 0) + zeros q)%nat end.
Lemma zeros_app a b : zeros (a ++ b) = (zeros a + zeros b)%nat.
Proof. induction a; cbn; [reflexivity|]. rewrite IHa. lia. Qed.
Lemma zeros_no_nul s : no_nul s -> zeros s = O.
Proof. unfold no_nul. induction 1 as [|c s Hc _ IH]; [reflexivity|]. cbn. destruct (c =? 0) eqn:E; [apply Z.eqb_eq in E; lia|exact IH]. Qed.
Definition somes (l : list (option value)) : nat := length (filter (fun o => match o with Some _ => true | None => false end) l).
Lemma somes_le l : (somes l <= length l)%nat.
Proof. unfold somes. induction l as [|[] l IH]; cbn; lia. Qed.
Lemma somes_full l : somes l = length l -> Forall (fun o => o <> None) l.
Proof.
  induction l as [|[v|] l IH]; intros E; constructor; try discriminate.
  - apply IH. unfold somes in *. cbn in E. lia.
  - exfalso. pose proof (somes_le l). unfold somes in *. cbn in E. lia.
  - exfalso. pose proof (somes_le l). unfold somes in *. cbn in E. lia.
Qed.

Lemma cenc_zeros ts vs : Forall2 (fun t x => forall v, x = Some v -> value_ok t v) ts vs -> Forall (eq STRING) ts -> zeros (cenc ts vs) = somes vs.
Proof.
  induction 1 as [|t x ts vs Hv _ IH]; intros A; [reflexivity|]. inversion A; subst.
  destruct x as [v|]; cbn [cenc]; [|rewrite IH by assumption; reflexivity].
  rewrite zeros_app, IH by assumption. specialize (Hv v eq_refl). destruct v as [z|s]; cbn in Hv; [contradiction|].
  cbn [fenc]. rewrite zeros_app, zeros_no_nul by exact Hv. reflexivity.
Qed.
Fixpoint widths (ts : list coltype) (vs : list (option value)) : nat :=
  match ts, vs with
  | t :: ts', Some _ :: vs' => (width t + widths ts' vs')%nat
  | _ :: ts', None :: vs' => widths ts' vs'
  | _, _ => O
  end.
Lemma cenc_length ts vs : Forall2 (fun t x => forall v, x = Some v -> value_ok t v) ts vs -> Forall (fun t => t <> STRING) ts ->
  length (cenc ts vs) = widths ts vs.
Proof.
  induction 1 as [|t x ts vs Hv _ IH]; intros A; [reflexivity|]. inversion A; subst.
  destruct x as [v|]; cbn [cenc widths]; [|apply IH; assumption].
  rewrite app_length, IH by assumption. specialize (Hv v eq_refl). destruct v as [z|s].
  - cbn [fenc]. rewrite be_bytes_length. reflexivity.
  - exfalso. destruct t; cbn in Hv; congruence || contradiction.
Qed.
Lemma widths_le ts : forall a b, length a = length ts -> length b = length ts -> Forall (fun o => o <> None) b ->
  Forall2 (fun t x => forall v : value, x = Some v -> value_ok t v) ts b -> Forall (fun t => t <> STRING) ts -> widths ts a = widths ts b -> Forall (fun o => o <> None) a.
Proof.
  assert (L : forall ts a b, length a = length ts -> length b = length ts -> Forall (fun o : option value => o <> None) b -> (widths ts a <= widths ts b)%nat).
  { clear. induction ts as [|t ts IH]; intros [|x a] [|y b] La Lb N; try discriminate; cbn [widths]; auto.
    inversion N; subst. destruct y; [|congruence]. specialize (IH a b ltac:(cbn in La; lia) ltac:(cbn in Lb; lia) ltac:(assumption)). destruct x; lia. }
  induction ts as [|t ts IH]; intros [|x a] [|y b] La Lb N T NS E; try discriminate; auto.
  inversion N; inversion T; inversion NS; subst. cbn [widths] in E. destruct y as [w|]; [|congruence].
  assert (W : (0 < width t)%nat).
  { assert (V : value_ok t w) by auto. destruct t; cbn; try lia; try congruence. destruct w; contradiction. }
  specialize (L ts a b ltac:(cbn in La; lia) ltac:(cbn in Lb; lia) ltac:(assumption)).
  destruct x as [v|]; [|lia]. constructor; [congruence|]. apply (IH a b); auto; cbn in *; lia.
Qed.

Lemma keys_null ps o i : key_types_ok ps -> Forall (fun p => typed (fst p) o /\ typed (snd p) i) ps ->
  Forall (fun p => col i (snd p) <> None) ps ->
  Forall (fun p => as_text (s_type (fst p)) (s_type (snd p)) = true) ps \/ Forall (fun p => as_text (s_type (fst p)) (s_type (snd p)) = false) ps ->
  outer_key ps o = inner_key ps i -> Forall (fun p => col o (fst p) <> None) ps.
Proof.
  intros K T N D E.
  assert (To : Forall (fun p => typed (fst p) o) ps) by (eapply Forall_impl; [|exact T]; cbn; tauto).
  assert (Ti : Forall (fun p => typed (snd p) i) ps) by (eapply Forall_impl; [|exact T]; cbn; tauto).
  rewrite outer_key_cenc, inner_key_cenc in E by assumption.
  assert (Ni : Forall (fun x : option value => x <> None) (ikeys ps i)).
  { unfold ikeys. rewrite Forall_map. eapply Forall_impl; [|exact N]. cbn. intros [l r]. cbn. destruct (col i r); cbn; congruence. }
  assert (No : Forall (fun x : option value => x <> None) (okeys ps o)).
  { destruct D as [D|D].
    - assert (S0 : Forall (eq STRING) (cast_types ps)).
      { unfold cast_types. rewrite Forall_map. unfold key_types_ok in K. rewrite Forall_forall in *. intros p Hp. symmetry. apply as_text_cast; auto. }
      apply somes_full. unfold okeys at 2. rewrite map_length.
      rewrite <- (cenc_zeros (cast_types ps) (okeys ps o)) by (auto using okeys_typed).
      rewrite E. rewrite (cenc_zeros (cast_types ps) (ikeys ps i)) by (auto using ikeys_typed).
      clear -Ni. transitivity (length (ikeys ps i)); [|unfold ikeys; now rewrite map_length].
      unfold somes. induction Ni as [|[v|] l A _ IH]; cbn; congruence.
    - assert (S0 : Forall (fun t => t <> STRING) (cast_types ps)).
      { unfold cast_types. rewrite Forall_map. unfold key_types_ok in K. rewrite Forall_forall in *. intros p Hp C. apply as_text_cast in C; auto. rewrite (D p Hp) in C. discriminate. }
      apply (widths_le (cast_types ps) _ (ikeys ps i)); auto using ikeys_typed; unfold okeys, ikeys, cast_types; rewrite ?map_length; auto.
      fold (okeys ps o) (ikeys ps i) (cast_types ps).
      rewrite <- !cenc_length by (auto using okeys_typed, ikeys_typed). now rewrite E. }
  unfold okeys in No. rewrite Forall_map in No. eapply Forall_impl; [|exact No]. cbn. intros [l r]. cbn. destruct (col o l); cbn; congruence.
Qed.
