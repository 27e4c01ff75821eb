(* The tuples of constants behind the key ranges, column by column. *)
From Coq Require Import List ZArith Lia Bool.
From Verif Require Import Common.Bytes Common.KV Key.Model Key.Spec Key.ProofsKey Key.ProofsTop.
From Verif Require Import Like.Model Like.Spec Path.Model Path.Spec Path.Hit.
Import ListNotations.
Local Open Scope Z_scope.

(* ---- products and fills ---- *)
Section Prod.
Context {A B : Type}.
Variable g : A -> B -> A.
Definition expand (T : list A) (vs : list B) : list A := flat_map (fun v => map (fun t => g t v) T) vs.
Lemma expand_len T vs : length (expand T vs) = (length vs * length T)%nat.
Proof. unfold expand. induction vs as [|v vs IH]; cbn; auto. rewrite app_length, map_length, IH. lia. Qed.
Lemma nth_error_map' {C D} (h : C -> D) l n : nth_error (map h l) n = option_map h (nth_error l n).
Proof. revert n. induction l as [|x l IH]; intros [|n]; cbn; auto. Qed.
Lemma expand_nth T vs i p t v : nth_error vs i = Some v -> nth_error T p = Some t ->
  nth_error (expand T vs) (i * length T + p) = Some (g t v).
Proof.
  unfold expand. revert i. induction vs as [|w vs IH]; intros i Hv Ht; [destruct i; discriminate|].
  pose proof (nth_error_Some T p) as L. rewrite Ht in L. assert (p < length T)%nat by (apply L; discriminate).
  destruct i as [|i]; cbn in *.
  - injection Hv as ->. rewrite nth_error_app1 by (rewrite map_length; auto). rewrite nth_error_map', Ht. auto.
  - rewrite nth_error_app2; rewrite map_length; [|lia].
    replace (length T + i * length T + p - length T)%nat with (i * length T + p)%nat by lia. auto.
Qed.
Lemma expand_inv T vs q u : nth_error (expand T vs) q = Some u ->
  exists i p t v, q = (i * length T + p)%nat /\ (p < length T)%nat /\ nth_error vs i = Some v /\ nth_error T p = Some t /\ u = g t v.
Proof.
  unfold expand. revert q. induction vs as [|w vs IH]; intros q H; [destruct q; discriminate|]. cbn in H.
  destruct (Nat.ltb_spec q (length T)) as [L|L].
  - rewrite nth_error_app1 in H by (rewrite map_length; auto). rewrite nth_error_map' in H.
    destruct (nth_error T q) as [t|] eqn:Q; [|discriminate]. injection H as <-. exists 0%nat, q, t, w. cbn. auto.
  - rewrite nth_error_app2 in H; rewrite map_length in *; [|lia]. destruct (IH _ H) as (i & p & t & v & X & Y & Z & W & ->).
    exists (S i), p, t, v. cbn. repeat split; auto. lia.
Qed.
Variable d : B.
Fixpoint fills (vs : list B) (off vi i : nat) (T : list A) : list A :=
  match T with
  | [] => []
  | t :: q => g t (nth vi vs d) ::
      (if Nat.eqb (S i) off then fills vs off (Nat.modulo (S vi) (length vs)) 0 q else fills vs off vi (S i) q)
  end.
Lemma fills_len vs off T : forall vi i, length (fills vs off vi i T) = length T.
Proof. induction T as [|t T IH]; intros vi i; cbn [fills length]; auto. destruct (Nat.eqb (S i) off); rewrite IH; auto. Qed.
Lemma fills_nth vs off T : (0 < off)%nat -> (0 < length vs)%nat -> forall vi i, (i < off)%nat -> (vi < length vs)%nat -> forall p,
  nth_error (fills vs off vi i T) p =
  option_map (fun t => g t (nth (((vi * off + i + p) / off) mod length vs) vs d)) (nth_error T p).
Proof.
  intros O V. induction T as [|t T IH]; intros vi i Hi Hv p; [destruct p; auto|].
  destruct p as [|p]; cbn [nth_error fills].
  - cbn. rewrite Nat.add_0_r. f_equal. f_equal. f_equal. rewrite Nat.add_comm, Nat.div_add by lia.
    rewrite Nat.div_small by lia. rewrite Nat.mod_small; lia.
  - destruct (Nat.eqb_spec (S i) off) as [Q|Q].
    + rewrite IH; [|lia|apply Nat.mod_upper_bound; lia]. f_equal. 
      replace (vi * off + i + S p)%nat with (p + (S vi) * off)%nat by lia.
      replace ((S vi) mod length vs * off + 0 + p)%nat with (p + (S vi mod length vs) * off)%nat by lia.
      rewrite !Nat.div_add by lia. rewrite (Nat.add_mod_idemp_r (p / off) (S vi) (length vs)) by lia. auto.
    + rewrite IH by lia. replace (vi * off + S i + p)%nat with (vi * off + i + S p)%nat by lia. auto.
Qed.
End Prod.

Section Tuples.
Variables (E : env) (cs : list cond) (m : fmap).
Hypothesis (OK : Forall (cond_ok E) cs) (APART : rows_apart cs) (INV : inv E cs m).
Notation t_ := (ct E).
Notation agree := (agree E).
Notation okv := (okv E).

Lemma F2_nth {A B} (P : A -> B -> Prop) l k i a d : Forall2 P l k -> nth_error l i = Some a -> nth_error k i = Some (nth i k d) /\ P a (nth i k d).
Proof.
  intros F. revert i. induction F as [|x y l k H F IH]; intros [|i]; cbn; try discriminate; [intros [= ->]; auto|apply IH].
Qed.
Lemma fix_vals f fr : fixsrc cs f fr -> Forall (okv f) (fr_eq fr) /\ fr_eq fr <> [] /\ (fr_type fr <> RIn -> length (fr_eq fr) = 1%nat).
Proof.
  intros (n & c & ids & rows & i & C & R & I & -> & _ & _ & _ & T). split; [|split].
  - rewrite Forall_map. pose proof (rows_ok E c ids rows (cond_at E cs OK n c C) R) as F.
    rewrite Forall_forall in *. intros l Hl. eapply (F2_nth okv); eauto.
  - destruct rows; [destruct (fr_type fr); cbn in T; lia|discriminate].
  - rewrite map_length. destruct (fr_type fr); congruence.
Qed.
Lemma enc_ok f v : okv f v -> enc_as E f v = fenc (t_ f) v.
Proof. intros H. unfold enc_as, enc. rewrite cast_ok by auto. rewrite encode_field_fenc by auto. auto. Qed.

Definition rowin (n : nat) (f : nat) : bool :=
  match m f with
  | Some fr => fr_row fr && (match fr_type fr with RIn => true | _ => false end) && Nat.eqb (first_cond fr) n
  | None => false
  end.
Definition nrows (n : nat) : nat :=
  match nth_error cs n with Some (CRowIn _ kss) => length (somes (map all_some kss)) | _ => O end.
Lemma rowin_src n f fr : In f (avail E) -> m f = Some fr -> rowin n f = true ->
  exists ids kss i, nth_error cs n = Some (CRowIn ids kss) /\ nth_error ids i = Some f /\ fr_lids fr = ids /\
    fr_eq fr = map (fun l => nth i l (VNum 0)) (somes (map all_some kss)) /\ fr_conds fr = [n] /\ (2 <= nrows n)%nat /\
    length (fr_eq fr) = nrows n.
Proof.
  intros Hf M. unfold rowin. rewrite M. intros R. apply andb_true_iff in R. destruct R as [R N]. apply andb_true_iff in R. destruct R as [R T].
  specialize (INV f fr Hf M). unfold src in INV. destruct (fr_type fr) eqn:TY; try discriminate.
  destruct INV as (n' & c & ids & rows & i & C & RO & I & Q & CO & RC & L & LR). rewrite TY in LR.
  unfold first_cond in N. rewrite CO in N. cbn in N. apply Nat.eqb_eq in N. subst n'.
  destruct c; cbn in RC; try congruence.
  - destruct o; try discriminate. cbn in RO. destruct (all_some ks); [|discriminate]. injection RO as <- <-. cbn in LR. lia.
  - cbn in RO. injection RO as <- <-. exists fs, kss, i.
    assert (NR : nrows n = length (somes (map all_some kss))) by (unfold nrows; rewrite C; auto).
    rewrite NR. repeat (split; [auto|]). rewrite Q, map_length. auto.
Qed.

Definition chooses (r : row) (ch : nat -> nat) : Prop :=
  forall n ids kss, nth_error cs n = Some (CRowIn ids kss) ->
    exists vs, nth_error (somes (map all_some kss)) (ch n) = Some vs /\ agree r ids vs.

Definition rows_t := list (nat * (nat * nat)).
Record tinv (D : list nat) (rows : rows_t) (T : list (list value)) : Prop := TI {
  ti_nd : NoDup D;
  ti_av : incl D (avail E);
  ti_fix : forall f, In f D -> exists fr, m f = Some fr /\ fixsrc cs f fr;
  ti_len : Forall (Forall2 okv D) T;
  ti_dig : forall n off hits, rows_get n rows = Some (off, hits) ->
    (0 < off)%nat /\ (2 <= nrows n)%nat /\ (exists q, length T = (q * (off * nrows n))%nat) /\ hits = length (filter (rowin n) D);
  ti_row : forall n f, In f D -> rowin n f = true -> rows_get n rows <> None;
  ti_tup : forall p t, nth_error T p = Some t -> forall i f fr, nth_error D i = Some f -> m f = Some fr ->
    exists v, nth_error t i = Some v /\ In v (fr_eq fr) /\
      (forall n off hits, rowin n f = true -> rows_get n rows = Some (off, hits) ->
         nth_error (fr_eq fr) ((p / off) mod nrows n) = Some v);
  ti_sound : forall r, index_row E r -> selected E cs r = true -> forall ch, chooses r ch ->
    exists p t, nth_error T p = Some t /\ agree r D t /\
      forall n off hits, rows_get n rows = Some (off, hits) -> ((p / off) mod nrows n = ch n)%nat }.

Lemma tinv0 : tinv [] [] [[]].
Proof.
  constructor; try (intros; contradiction); try discriminate.
  - constructor. - intros x []. - repeat constructor.
  - intros p t H i f fr X. destruct i; discriminate.
  - intros r _ _ ch _. exists 0%nat, []. split; auto. split; [constructor|]. discriminate.
Qed.

Lemma sel_at r n c : selected E cs r = true -> nth_error cs n = Some c -> holds E r c = true.
Proof. intros S C. unfold selected in S. rewrite forallb_forall in S. apply S. eapply nth_error_In; eauto. Qed.

(* a row of the answer has one of the values *)
Lemma fix_sound r f fr : index_row E r -> In f (avail E) -> selected E cs r = true -> fixsrc cs f fr ->
  exists i v, nth_error (fr_eq fr) i = Some v /\ eqv E r f v.
Proof.
  intros IR Hf S (n & c & ids & rows & i & C & RO & I & Q & _). rewrite Q.
  pose proof (sel_at r n c S C) as H. apply (rows_hold E c ids rows r) in H; auto.
  - destruct H as (vs & X & Y). apply In_nth_error in X. destruct X as [k X]. exists k, (nth i vs (VNum 0)).
    split; [rewrite (nth_error_map' _ rows k), X; auto|]. eapply (F2_nth (eqv E r)); eauto.
  - eapply cond_at; eauto.
  - destruct c; auto. intros v Hv. cbn in RO. destruct p; [|discriminate]. destruct (index_for_like l); try discriminate. injection RO as <- <-.
    destruct i as [|[]]; cbn in I; try discriminate. injection I as ->.
    unfold index_row in IR. rewrite Forall_forall in IR. destruct (IR f Hf) as (w & X & Y). congruence.
Qed.

Notation snoc := (fun (t : list value) v => t ++ [v]).
Lemma mod_digit T off N i p : (0 < off)%nat -> (0 < N)%nat -> (exists q, T = q * (off * N))%nat -> ((i * T + p) / off mod N = (p / off) mod N)%nat.
Proof.
  intros O N0 [q ->]. replace (i * (q * (off * N)) + p)%nat with (p + (i * q * N) * off)%nat by lia.
  rewrite Nat.div_add by lia. replace (p / off + i * q * N)%nat with (p / off + (i * q) * N)%nat by lia. apply Nat.mod_add. lia.
Qed.
Lemma nth_snoc {A} (D : list A) (f : A) i x : nth_error (D ++ [f]) i = Some x -> nth_error D i = Some x \/ (i = length D /\ x = f).
Proof.
  intros H. destruct (Nat.ltb_spec i (length D)) as [L|L]; [rewrite nth_error_app1 in H by auto; auto|].
  rewrite nth_error_app2 in H by auto. right. destruct (i - length D)%nat as [|k] eqn:Q; [|destruct k; discriminate]. cbn in H. split; [lia|congruence].
Qed.

Lemma expand_tinv D rows T f fr :
  tinv D rows T -> ~ In f D -> In f (avail E) -> m f = Some fr -> fixsrc cs f fr -> (length T > 0)%nat ->
  (forall n, rowin n f = true -> rows_get n rows = None) ->
  tinv (D ++ [f]) (if fr_row fr && (match fr_type fr with RIn => true | _ => false end) then (first_cond fr, (length T, 1%nat)) :: rows else rows)
       (expand snoc T (fr_eq fr)).
Proof.
  intros TT NF AF M FS TP NR. destruct (fix_vals f fr FS) as (VO & VN & V1).
  set (isrow := fr_row fr && _). set (rows' := if isrow then _ else rows).
  assert (RI : forall n, rowin n f = true <-> isrow = true /\ first_cond fr = n).
  { intros n. unfold rowin. rewrite M. fold isrow. rewrite andb_true_iff, Nat.eqb_eq. tauto. }
  assert (RG : forall n, rows_get n rows' = if isrow && Nat.eqb (first_cond fr) n then Some (length T, 1%nat) else rows_get n rows).
  { intros n. unfold rows'. destruct isrow; cbn; auto. }
  assert (OLD : forall n f', In f' D -> rowin n f' = true -> (isrow && Nat.eqb (first_cond fr) n) = false).
  { intros n f' H1 H2. destruct (isrow && _) eqn:Q; auto. apply andb_true_iff in Q. rewrite Nat.eqb_eq in Q. apply RI in Q. apply NR in Q.
    destruct (ti_row _ _ _ TT n f' H1 H2 Q). }
  constructor.
  - clear - TT NF. pose proof (ti_nd _ _ _ TT) as ND. induction D as [|x D IH]; cbn; [repeat constructor; auto|].
    inversion ND; subst. constructor; [rewrite in_app_iff; cbn; intros [X|[X|[]]]; [auto|subst; apply NF; left; auto]|].
    clear IH. assert (G : forall D, NoDup D -> ~ In f D -> NoDup (D ++ [f])).
    { clear. induction D as [|y D IH]; cbn; intros ND NI; [repeat constructor; auto|]. inversion ND; subst.
      constructor; [rewrite in_app_iff; cbn; intros [X|[X|[]]]; [auto|subst; tauto]|]. apply IH; auto. }
    apply G; auto. intros X. apply NF. right; auto.
  - intros x Hx. apply in_app_iff in Hx. destruct Hx as [Hx|[<-|[]]]; auto. apply (ti_av _ _ _ TT); auto.
  - intros x Hx. apply in_app_iff in Hx. destruct Hx as [Hx|[<-|[]]]; [apply (ti_fix _ _ _ TT); auto|eauto].
  - rewrite Forall_forall. intros u Hu. apply In_nth_error in Hu. destruct Hu as [q Hu]. apply expand_inv in Hu.
    destruct Hu as (i & p & t & v & _ & _ & X & Y & ->). apply Forall2_app.
    + pose proof (ti_len _ _ _ TT) as L. rewrite Forall_forall in L. apply L. eapply nth_error_In; eauto.
    + repeat constructor. rewrite Forall_forall in VO. apply VO. eapply nth_error_In; eauto.
  - intros n off hits. rewrite RG, expand_len, filter_app, app_length. cbn [filter]. destruct (isrow && _) eqn:Q.
    + intros [= <- <-]. apply andb_true_iff in Q. rewrite Nat.eqb_eq in Q. apply RI in Q.
      destruct (rowin_src n f fr AF M Q) as (ids & kss & i & C & I & L & _ & CO & N2 & NL).
      repeat split; auto; [exists 1%nat; rewrite NL; lia|]. rewrite Q. cbn.
      assert (Z : filter (rowin n) D = []).
      { destruct (filter (rowin n) D) as [|x l] eqn:W; auto. assert (X : In x (filter (rowin n) D)) by (rewrite W; left; auto).
        apply filter_In in X. destruct X as [X Y]. destruct (ti_row _ _ _ TT n x X Y). apply NR. auto. }
      rewrite Z. auto.
    + intros R. destruct (ti_dig _ _ _ TT n off hits R) as (A & B & [q C] & H). repeat split; auto.
      * exists (length (fr_eq fr) * q)%nat. rewrite C. lia.
      * destruct (rowin n f) eqn:W; [apply RI in W; rewrite (proj1 W), (proj2 W), Nat.eqb_refl in Q; discriminate|]. cbn. lia.
  - intros n x Hx R. rewrite RG. destruct (isrow && _) eqn:Q; [discriminate|]. apply in_app_iff in Hx. destruct Hx as [Hx|[<-|[]]].
    + eapply (ti_row _ _ _ TT); eauto.
    + apply RI in R. rewrite (proj1 R), (proj2 R), Nat.eqb_refl in Q. discriminate.
  - intros q u Hu i0 x xr Hx Mx. apply expand_inv in Hu. destruct Hu as (i & p & t & v & -> & LP & X & Y & ->).
    assert (LT : length t = length D).
    { pose proof (ti_len _ _ _ TT) as L. rewrite Forall_forall in L. apply nth_error_In in Y. apply L in Y. apply F2_len in Y. auto. }
    apply nth_snoc in Hx. destruct Hx as [Hx|[-> ->]].
    + destruct (ti_tup _ _ _ TT p t Y i0 x xr Hx Mx) as (w & W1 & W2 & W3). exists w. split; [rewrite nth_error_app1; auto; apply nth_error_Some; congruence|].
      split; auto. intros n off hits R G. rewrite RG in G. rewrite (OLD n x) in G; auto; [|eapply nth_error_In; eauto].
      destruct (ti_dig _ _ _ TT n off hits G) as (A & B & C & _). rewrite mod_digit; auto; [eapply W3; eauto|lia].
    + assert (xr = fr) by congruence. subst xr. exists v. split; [rewrite nth_error_app2 by lia; replace (length D - length t)%nat with O by lia; auto|].
      split; [eapply nth_error_In; eauto|]. intros n off hits R G. rewrite RG in G. apply RI in R. destruct R as [R1 R2].
      rewrite R1, R2, Nat.eqb_refl in G. cbn in G. injection G as <- <-.
      assert (R : rowin n f = true) by (apply RI; auto). destruct (rowin_src n f fr AF M R) as (_ & _ & _ & _ & _ & _ & _ & _ & N2 & NL).
      rewrite Nat.add_comm, Nat.div_add by lia. rewrite (Nat.div_small p) by lia. cbn. rewrite Nat.mod_small; auto.
      rewrite <- NL. apply nth_error_Some. congruence.
  - intros r IR S ch CH. destruct (ti_sound _ _ _ TT r IR S ch CH) as (p & t & X & Y & Z).
    assert (P : exists i v, nth_error (fr_eq fr) i = Some v /\ eqv E r f v /\ (forall n, rowin n f = true -> i = ch n)).
    { destruct isrow eqn:Q.
      - assert (R : rowin (first_cond fr) f = true) by (apply RI; auto). destruct (rowin_src _ f fr AF M R) as (ids & kss & i & C & I & L & Q1 & CO & _).
        destruct (CH _ _ _ C) as (vs & V & W). exists (ch (first_cond fr)), (nth i vs (VNum 0)). split; [rewrite Q1, nth_error_map', V; auto|].
        split; [eapply (F2_nth (eqv E r)); eauto|]. intros n R'. apply RI in R'. destruct R' as [_ <-]. auto.
      - destruct (fix_sound r f fr IR AF S FS) as (i & v & V & W). exists i, v. split; auto. split; auto.
        intros n R'. apply RI in R'. destruct R'. discriminate. }
    destruct P as (i & v & V & W & U). exists (i * length T + p)%nat, (t ++ [v]). split; [apply (expand_nth (fun (t : list value) v => t ++ [v])); auto|].
    split; [apply Forall2_app; auto; repeat constructor; auto|].
    intros n off hits. rewrite RG. destruct (isrow && _) eqn:Q.
    + intros [= <- <-]. apply andb_true_iff in Q. rewrite Nat.eqb_eq in Q. apply RI in Q.
      destruct (rowin_src n f fr AF M Q) as (_ & _ & _ & _ & _ & _ & _ & _ & N2 & NL).
      assert (p < length T)%nat by (apply nth_error_Some; congruence).
      rewrite Nat.add_comm, Nat.div_add by lia. rewrite (Nat.div_small p) by lia. cbn. rewrite Nat.mod_small; [apply U; auto|].
      rewrite <- NL. apply nth_error_Some. congruence.
    + intros G. destruct (ti_dig _ _ _ TT n off hits G) as (A & B & C & _). rewrite mod_digit; auto; [eapply Z; eauto|lia].
Qed.

Lemma fill_tinv D rows T f fr off hits :
  tinv D rows T -> ~ In f D -> In f (avail E) -> m f = Some fr -> fixsrc cs f fr ->
  rowin (first_cond fr) f = true -> rows_get (first_cond fr) rows = Some (off, hits) ->
  tinv (D ++ [f]) ((first_cond fr, (off, S hits)) :: rows) (fills snoc (VNum 0) (fr_eq fr) off 0 0 T).
Proof.
  intros TT NF AF M FS R G0. destruct (fix_vals f fr FS) as (VO & VN & V1).
  destruct (rowin_src _ f fr AF M R) as (ids & kss & ix & C & I & L & Q1 & CO & N2 & NL).
  set (nn := first_cond fr) in *. destruct (ti_dig _ _ _ TT nn off hits G0) as (O0 & _ & [q0 C0] & H0).
  assert (RI : forall n, rowin n f = true <-> nn = n).
  { intros n. unfold rowin in *. rewrite M in *. apply andb_true_iff in R. rewrite andb_true_iff, Nat.eqb_eq. fold nn. tauto. }
  assert (RG : forall n, rows_get n ((nn, (off, S hits)) :: rows) = if Nat.eqb nn n then Some (off, S hits) else rows_get n rows) by auto.
  assert (FN : forall p, nth_error (fills snoc (VNum 0) (fr_eq fr) off 0 0 T) p =
     option_map (fun t => t ++ [nth ((p / off) mod nrows nn) (fr_eq fr) (VNum 0)]) (nth_error T p)).
  { intros p. rewrite fills_nth; auto; try lia. cbn [Nat.mul Nat.add]. rewrite NL. auto. }
  assert (DV : forall p, nth_error (fr_eq fr) ((p / off) mod nrows nn) = Some (nth ((p / off) mod nrows nn) (fr_eq fr) (VNum 0))).
  { intros p. apply nth_error_nth'. rewrite NL. apply Nat.mod_upper_bound. lia. }
  constructor.
  - assert (G : forall D, NoDup D -> ~ In f D -> NoDup (D ++ [f])).
    { clear. induction D as [|y D IH]; cbn; intros ND NI; [repeat constructor; auto|]. inversion ND; subst.
      constructor; [rewrite in_app_iff; cbn; intros [X|[X|[]]]; [auto|subst; tauto]|]. apply IH; auto. }
    apply G; auto. apply (ti_nd _ _ _ TT).
  - intros x Hx. apply in_app_iff in Hx. destruct Hx as [Hx|[<-|[]]]; auto. apply (ti_av _ _ _ TT); auto.
  - intros x Hx. apply in_app_iff in Hx. destruct Hx as [Hx|[<-|[]]]; [apply (ti_fix _ _ _ TT); auto|eauto].
  - rewrite Forall_forall. intros u Hu. apply In_nth_error in Hu. destruct Hu as [p Hu]. rewrite FN in Hu.
    destruct (nth_error T p) as [t|] eqn:Y; [|discriminate]. injection Hu as <-. apply Forall2_app.
    + pose proof (ti_len _ _ _ TT) as LL. rewrite Forall_forall in LL. apply LL. eapply nth_error_In; eauto.
    + repeat constructor. rewrite Forall_forall in VO. apply VO. eapply nth_error_In. apply DV.
  - intros n o h. rewrite RG, fills_len, filter_app, app_length. cbn [filter]. destruct (Nat.eqb_spec nn n) as [<-|N].
    + intros [= <- <-]. rewrite R. cbn. repeat split; auto; [eauto|lia].
    + intros W. destruct (ti_dig _ _ _ TT n o h W) as (A & B & CC & H). repeat split; auto.
      destruct (rowin n f) eqn:RR; [apply RI in RR; congruence|]. cbn. lia.
  - intros n x Hx RR. rewrite RG. destruct (Nat.eqb_spec nn n) as [<-|N]; [discriminate|]. apply in_app_iff in Hx. destruct Hx as [Hx|[<-|[]]].
    + eapply (ti_row _ _ _ TT); eauto.
    + apply RI in RR. congruence.
  - intros p u Hu i0 x xr Hx Mx. rewrite FN in Hu. destruct (nth_error T p) as [t|] eqn:Y; [|discriminate]. injection Hu as <-.
    assert (LT : length t = length D).
    { pose proof (ti_len _ _ _ TT) as LL. rewrite Forall_forall in LL. apply nth_error_In in Y. apply LL in Y. apply F2_len in Y. auto. }
    apply nth_snoc in Hx. destruct Hx as [Hx|[-> ->]].
    + destruct (ti_tup _ _ _ TT p t Y i0 x xr Hx Mx) as (w & W1 & W2 & W3). exists w. split; [rewrite nth_error_app1; auto; apply nth_error_Some; congruence|].
      split; auto. intros n o h RR G. rewrite RG in G. destruct (Nat.eqb_spec nn n) as [<-|N]; [injection G as <- <-; eapply W3; eauto|eapply W3; eauto].
    + assert (xr = fr) by congruence. subst xr. eexists. split; [rewrite nth_error_app2 by lia; replace (length D - length t)%nat with O by lia; reflexivity|].
      split; [eapply nth_error_In; apply DV|]. intros n o h RR G. apply RI in RR. subst n. rewrite RG, Nat.eqb_refl in G. injection G as <- <-. apply DV.
  - intros r IR S ch CH. destruct (ti_sound _ _ _ TT r IR S ch CH) as (p & t & X & Y & Z).
    exists p, (t ++ [nth ((p / off) mod nrows nn) (fr_eq fr) (VNum 0)]). split; [rewrite FN, X; auto|]. split.
    + apply Forall2_app; auto. repeat constructor. rewrite (Z nn off hits G0). destruct (CH _ _ _ C) as (vs & V & W).
      assert (NE : nth_error (fr_eq fr) (ch nn) = Some (nth ix vs (VNum 0))) by (rewrite Q1, nth_error_map', V; auto).
      rewrite (nth_error_nth _ _ (VNum 0) NE). eapply (F2_nth (eqv E r)); eauto.
    + intros n o h. rewrite RG. destruct (Nat.eqb_spec nn n) as [<-|N]; [intros [= <- <-]; apply (Z nn off hits); auto|apply (Z n o h)].
Qed.

(* ---- the conditions that are settled ---- *)
Lemma agree_nth r D t i f v : agree r D t -> nth_error D i = Some f -> nth_error t i = Some v -> eqv E r f v.
Proof. intros A X Y. destruct (F2_nth _ _ _ i f (VNum 0) A X) as [Q H]. rewrite Y in Q. injection Q as ->. auto. Qed.

Lemma agree_ids r ids vs : length vs = length ids -> (forall i f, nth_error ids i = Some f -> eqv E r f (nth i vs (VNum 0))) -> agree r ids vs.
Proof.
  revert vs. induction ids as [|f ids IH]; intros [|v vs] L H; cbn in L; try discriminate; [constructor|].
  constructor; [apply (H 0%nat f); auto|]. apply IH; [lia|]. intros i g X. apply (H (S i) g). auto.
Qed.

(* the condition of a column that is not part of a row *)
Lemma cut_plain D rows T f fr n c r t : tinv D rows T -> In f D -> m f = Some fr -> fixsrc cs f fr -> fr_row fr = false ->
  In n (fr_conds fr) -> nth_error cs n = Some c -> In t T -> index_row E r -> agree r D t -> holds E r c = true.
Proof.
  intros TT Hf M (n' & c' & ids & rws & i & C & RO & I & Q & CO & RC & _) NR Hn Cn Ht IR A.
  rewrite CO in Hn. destruct Hn as [->|[]]. assert (c' = c) by congruence. subst c'. rewrite NR in RC.
  apply In_nth_error in Hf. destruct Hf as [k Hf]. apply In_nth_error in Ht. destruct Ht as [p Ht].
  destruct (ti_tup _ _ _ TT p t Ht k f fr Hf M) as (v & V1 & V2 & _). pose proof (agree_nth r D t k f v A Hf V1) as EV.
  apply (rows_hold E c ids rws r); [eapply cond_at; eauto|auto| |].
  - destruct c; auto. intros w Hw. cbn in RO. destruct p0; [|discriminate]. destruct (index_for_like l); try discriminate. injection RO as <- <-.
    destruct i as [|[]]; cbn in I; try discriminate. injection I as ->.
    unfold index_row in IR. rewrite Forall_forall in IR. destruct (IR f) as (u & X & Y); [apply (ti_av _ _ _ TT); eapply nth_error_In; eauto|congruence].
  - assert (IDS : ids = [f]).
    { destruct c; cbn in RC, RO; try discriminate.
      - destruct o; try discriminate; destruct k0; try discriminate. injection RO as <- <-. destruct i as [|[]]; cbn in I; congruence.
      - injection RO as <- <-. destruct i as [|[]]; cbn in I; congruence.
      - destruct p0; [|discriminate]. destruct (index_for_like l); try discriminate. injection RO as <- <-. destruct i as [|[]]; cbn in I; congruence. }
    subst ids. destruct i as [|[]]; cbn in I; try discriminate. rewrite Q in V2. apply in_map_iff in V2. destruct V2 as (l & <- & Hl).
    exists l. split; auto. pose proof (rows_ok E c [f] rws (cond_at E cs OK n c Cn) RO) as RK. rewrite Forall_forall in RK. apply RK in Hl.
    inversion Hl as [|? x ? ? X Y]; subst. inversion Y; subst. repeat constructor. auto.
Qed.

(* a row equality whose columns are all used *)
Lemma cut_row1 D rows T f fr n c r t : tinv D rows T -> In f D -> m f = Some fr -> fixsrc cs f fr -> fr_row fr = true -> fr_type fr <> RIn ->
  incl (fr_lids fr) D -> In n (fr_conds fr) -> nth_error cs n = Some c -> In t T -> agree r D t -> holds E r c = true.
Proof.
  intros TT Hf M (n' & c' & ids & rws & i & C & RO & I & Q & CO & RC & LI & TY) NR NT INC Hn Cn Ht A.
  rewrite CO in Hn. destruct Hn as [->|[]]. assert (c' = c) by congruence. subst c'. rewrite NR in RC. specialize (LI NR). rewrite LI in INC.
  assert (L1 : length rws = 1%nat) by (destruct (fr_type fr); congruence). destruct rws as [|vs [|]]; try discriminate.
  pose proof (cond_at E cs OK n c Cn) as CK. pose proof (rows_ok E c ids [vs] CK RO) as RK. inversion RK as [|? ? VK _]; subst.
  apply (rows_hold E c (fr_lids fr) [vs] r); auto; [destruct c; auto; discriminate|].
  exists vs. split; [left; auto|]. apply agree_ids; [apply F2_len in VK; auto|]. intros j g Hj.
  assert (OR : one_row c) by (apply (rows_len1_one_row c (fr_lids fr) vs RO); destruct c; auto; discriminate).
  assert (Hg : In g D) by (apply INC; eapply nth_error_In; eauto).
  destruct (ti_fix _ _ _ TT g Hg) as (gr & Mg & (n2 & c2 & ids2 & rws2 & i2 & C2 & RO2 & I2 & Q2 & CO2 & RC2 & LI2 & TY2)).
  assert (NE : n2 = n).
  { destruct (Nat.eq_dec n2 n) as [|NE]; auto. exfalso. apply (APART n n2 c c2 g Cn C2); auto.
    - rewrite (rows_fixes c _ _ RO). eapply nth_error_In; eauto.
    - rewrite (rows_fixes c2 _ _ RO2). eapply nth_error_In; eauto. }
  subst n2. assert (c2 = c) by congruence. subst c2. rewrite RO in RO2. injection RO2 as <- <-.
  assert (ND : NoDup (fr_lids fr)).
  { destruct c; cbn in RC; try discriminate; cbn in RO, CK.
    - destruct o; try discriminate. destruct (all_some ks); [|discriminate]. injection RO as <- _. tauto.
    - injection RO as <- _. tauto. }
  assert (i2 = j).
  { rewrite NoDup_nth_error in ND. apply ND; [apply nth_error_Some; congruence|congruence]. }
  subst i2. apply In_nth_error in Hg. destruct Hg as [k Hg]. apply In_nth_error in Ht. destruct Ht as [p Ht].
  destruct (ti_tup _ _ _ TT p t Ht k g gr Hg Mg) as (v & V1 & V2 & _). rewrite Q2 in V2. cbn in V2. destruct V2 as [<-|[]].
  eapply agree_nth; eauto.
Qed.

(* a row IN all of whose columns were used for it *)
Lemma cut_rowin D rows T f fr n c r t : tinv D rows T -> In f D -> m f = Some fr -> fr_row fr = true -> fr_type fr = RIn -> fixsrc cs f fr ->
  (exists off, rows_get (first_cond fr) rows = Some (off, length (fr_lids fr))) ->
  In n (fr_conds fr) -> nth_error cs n = Some c -> In t T -> agree r D t -> holds E r c = true.
Proof.
  intros TT Hf M NR TY FS [off G] Hn Cn Ht A.
  assert (AF : In f (avail E)) by (apply (ti_av _ _ _ TT); auto).
  assert (R : rowin (first_cond fr) f = true) by (unfold rowin; rewrite M, NR, TY, Nat.eqb_refl; auto).
  destruct (rowin_src _ f fr AF M R) as (ids & kss & ix & C & I & L & Q1 & CO & N2 & NL).
  assert (n = first_cond fr) by (rewrite CO in Hn; destruct Hn as [<-|[]]; auto). subst n. set (n := first_cond fr) in *.
  assert (c = CRowIn ids kss) by congruence. subst c. clear Cn.
  destruct (ti_dig _ _ _ TT n off _ G) as (O0 & _ & _ & H). rewrite L in H.
  assert (INC : incl ids (filter (rowin n) D)).
  { apply NoDup_length_incl; [apply NoDup_filter; apply (ti_nd _ _ _ TT)|lia|]. intros g Hg. apply filter_In in Hg. destruct Hg as [Hg Rg].
    destruct (ti_fix _ _ _ TT g Hg) as (gr & Mg & _). destruct (rowin_src n g gr (ti_av _ _ _ TT g Hg) Mg Rg) as (ids' & kss' & j & C' & I' & _).
    assert (ids' = ids) by congruence. subst. eapply nth_error_In; eauto. }
  apply In_nth_error in Ht. destruct Ht as [p Ht].
  pose proof (cond_at E cs OK n _ C) as CK.
  assert (DL : ((p / off) mod nrows n < length (somes (map all_some kss)))%nat).
  { unfold nrows in *. rewrite C in *. apply Nat.mod_upper_bound. lia. }
  set (d := ((p / off) mod nrows n)%nat) in *. destruct (nth_error (somes (map all_some kss)) d) as [vs|] eqn:V; [|apply nth_error_None in V; lia].
  apply (rows_hold E (CRowIn ids kss) ids (somes (map all_some kss)) r); auto. exists vs. split; [eapply nth_error_In; eauto|].
  pose proof (rows_ok E (CRowIn ids kss) ids _ CK eq_refl) as RK. rewrite Forall_forall in RK. specialize (RK vs (nth_error_In _ _ V)).
  apply agree_ids; [apply F2_len in RK; auto|]. intros j g Hj.
  assert (Hg : In g (filter (rowin n) D)) by (apply INC; eapply nth_error_In; eauto). apply filter_In in Hg. destruct Hg as [Hg Rg].
  destruct (ti_fix _ _ _ TT g Hg) as (gr & Mg & _).
  destruct (rowin_src n g gr (ti_av _ _ _ TT g Hg) Mg Rg) as (ids' & kss' & j' & C' & I' & _ & Q' & _).
  assert (X : CRowIn ids' kss' = CRowIn ids kss) by congruence. injection X as -> ->.
  assert (ND : NoDup ids) by (cbn in CK; tauto).
  assert (j' = j) by (rewrite NoDup_nth_error in ND; apply ND; [apply nth_error_Some; congruence|congruence]). subst j'.
  apply In_nth_error in Hg. destruct Hg as [k Hg].
  destruct (ti_tup _ _ _ TT p t Ht k g gr Hg Mg) as (v & V1 & _ & V3). specialize (V3 n off _ Rg G). fold d in V3.
  rewrite Q', nth_error_map', V in V3. injection V3 as <-. eapply agree_nth; eauto.
Qed.
End Tuples.
