(* The range test decides exactly whether the primary key of an entry's row lies in the range. *)
From Verif Require Import Common.Bytes Key.Model Key.Spec Key.ProofsKey Key.ProofsTop Split.Model Split.Spec.
Local Open Scope Z_scope.

(* bytes of one column *)
Definition colb (r : record) (f : field_info) : list Z :=
  match col_value r f with Some v => fenc (f_type f) v | None => [] end.

Lemma cenc_flat r fs : cenc (map f_type fs) (map (col_value r) fs) = flat_map (colb r) fs.
Proof.
  induction fs as [|f fs IH]; cbn [map cenc flat_map]; [reflexivity|]. unfold colb at 1.
  destruct (col_value r f); rewrite IH; reflexivity.
Qed.

Definition fixw (f : field_info) : Prop := size_of (f_type f) <> -1.

Lemma size_pos f : fixw f -> 0 < size_of (f_type f).
Proof. unfold fixw. destruct (f_type f); cbn; lia. Qed.

Lemma size_width f : fixw f -> size_of (f_type f) = Z.of_nat (width (f_type f)).
Proof. unfold fixw. destruct (f_type f); cbn; congruence. Qed.

Lemma colb_len r f : row_ok r [f] -> fixw f -> col_value r f <> None -> Z.of_nat (length (colb r f)) = size_of (f_type f).
Proof.
  intros Hr Hf Hn. unfold colb. destruct (col_value r f) as [v|] eqn:E; [|congruence].
  inversion Hr as [|? ? [Ht Hv] _]; subst.
  pose proof (col_value_ok r f v Ht Hv E) as Ok. rewrite size_width by exact Hf.
  destruct v as [z|s]; cbn [fenc].
  - rewrite be_bytes_length. reflexivity.
  - exfalso. destruct (f_type f) eqn:T; cbn in Ok; try contradiction. unfold fixw in Hf. rewrite T in Hf. apply Hf. reflexivity.
Qed.

Fixpoint sizes (fs : list field_info) : Z := match fs with [] => 0 | f :: fs' => size_of (f_type f) + sizes fs' end.

Lemma sizes_nonneg fs : Forall fixw fs -> 0 <= sizes fs.
Proof. induction 1 as [|f fs Hf _ IH]; cbn; [lia|]. pose proof (size_pos f Hf). lia. Qed.

Definition present (r : record) (fs : list field_info) : Prop := Forall (fun f => col_value r f <> None) fs.

Lemma flat_len r fs : row_ok r fs -> Forall fixw fs -> present r fs ->
  Z.of_nat (length (flat_map (colb r) fs)) = sizes fs.
Proof.
  intros Hr Hf Hp. induction fs as [|f fs IH]; cbn [flat_map sizes]; [reflexivity|].
  inversion Hr; inversion Hf; inversion Hp; subst. rewrite app_length, Nat2Z.inj_add, IH by assumption.
  rewrite colb_len; [reflexivity| |assumption|assumption]. constructor; [assumption|constructor].
Qed.

Lemma not_null_present r fs : existsb f_can_null fs = false -> present r fs.
Proof.
  induction fs as [|f fs IH]; cbn; intros E; constructor; apply orb_false_iff in E; destruct E as [E1 E2].
  - unfold col_value. rewrite E1. destruct (r (f_pb_idx f)); congruence.
  - apply IH. exact E2.
Qed.

(* ---- layout ---- *)

Lemma layout_bad fs : forall m, fst (layout fs (-1) m) = -1.
Proof.
  induction fs as [|f fs IH]; intros m; cbn [layout]; [reflexivity|].
  destruct (size_of (f_type f) =? -1); [apply IH|]. cbn. apply IH.
Qed.

Lemma layout_len fs : forall l m, 0 <= l -> 
  (Forall fixw fs /\ fst (layout fs l m) = l + sizes fs) \/ (~ Forall fixw fs /\ fst (layout fs l m) = -1).
Proof.
  induction fs as [|f fs IH]; intros l m Hl; cbn [layout sizes].
  - left. split; [constructor|]. cbn. lia.
  - destruct (Z.eqb_spec (size_of (f_type f)) (-1)) as [E|E].
    + right. split; [intros X; inversion X; contradiction|]. apply layout_bad.
    + replace (negb (l =? -1)) with true by (symmetry; apply negb_true_iff, Z.eqb_neq; lia).
      pose proof (size_pos f E).
      destruct (IH (l + size_of (f_type f)) (insert m (f_pb_idx f) l) ltac:(lia)) as [[A B]|[A B]]; rewrite B.
      * left. split; [constructor; assumption|lia].
      * right. split; [intros X; inversion X; contradiction|reflexivity].
Qed.

Lemma lookup_app m m2 id : lookup (m ++ m2) id = match lookup m id with Some p => Some p | None => lookup m2 id end.
Proof. induction m as [|[i p] m IH]; cbn; [reflexivity|]. destruct (i =? id); [reflexivity|apply IH]. Qed.

Lemma lookup_insert m i p id q : lookup (insert m i p) id = Some q -> lookup m id = Some q \/ (id = i /\ q = p).
Proof.
  unfold insert. destruct (lookup m i) eqn:E; [auto|]. rewrite lookup_app. destruct (lookup m id); [auto|].
  cbn. destruct (Z.eqb_spec i id); [|discriminate]. intros X. injection X as <-. auto.
Qed.

Lemma layout_pos fs : forall l m id p, 0 <= l -> Forall fixw fs -> lookup (snd (layout fs l m)) id = Some p ->
  lookup m id = Some p \/
  exists fs1 f fs2, fs = fs1 ++ f :: fs2 /\ f_pb_idx f = id /\ p = l + sizes fs1.
Proof.
  induction fs as [|f fs IH]; intros l m id p Hl Hf; cbn [layout].
  - cbn. auto.
  - inversion Hf as [|? ? E Hf']; subst.
    replace (size_of (f_type f) =? -1) with false by (symmetry; apply Z.eqb_neq; exact E).
    replace (negb (l =? -1)) with true by (symmetry; apply negb_true_iff, Z.eqb_neq; lia).
    pose proof (size_pos f E). intros L. apply IH in L; [|lia|exact Hf'].
    destruct L as [L|(fs1 & g & fs2 & -> & Hid & ->)].
    + apply lookup_insert in L. destruct L as [L|[-> ->]]; [auto|].
      right. exists [], f, fs. cbn. repeat split. lia.
    + right. exists (f :: fs1), g, fs2. cbn. repeat split; [exact Hid|lia].
Qed.

Lemma pk_layout_len pk m : forall l, 0 <= l ->
  (~ Forall fixw pk /\ fst (fst (pk_layout pk m l)) = -1) \/
  (Forall fixw pk /\ 0 <= fst (fst (pk_layout pk m l)) /\
   exists pfs, snd (fst (pk_layout pk m l)) = pfs /\ (length pfs <= length pk)%nat /\ (length pfs = length pk -> pfs = pk)).
Proof.
  induction pk as [|f pk IH]; intros l Hl; cbn [pk_layout].
  - right. split; [constructor|]. cbn. split; [lia|]. exists []. auto.
  - destruct (Z.eqb_spec (size_of (f_type f)) (-1)) as [E|E].
    + left. split; [intros X; inversion X; contradiction|reflexivity].
    + pose proof (size_pos f E). destruct (lookup m (f_pb_idx f)).
      * specialize (IH l Hl). destruct (pk_layout pk m l) as [[pl pfs] ps]. cbn [fst snd] in *.
        destruct IH as [[A B]|(A & B & pfs' & <- & C & D)].
        -- left. split; [intros X; inversion X; contradiction|exact B].
        -- right. split; [constructor; assumption|]. split; [exact B|]. exists pfs. cbn. repeat split; [lia|]. intros; lia.
      * specialize (IH (l + size_of (f_type f)) ltac:(lia)). destruct (pk_layout pk m _) as [[pl pfs] ps]. cbn [fst snd] in *.
        destruct IH as [[A B]|(A & B & pfs' & <- & C & D)].
        -- left. split; [intros X; inversion X; contradiction|exact B].
        -- right. split; [constructor; assumption|]. split; [exact B|]. exists (f :: pfs). cbn. repeat split; [lia|].
           intros X. f_equal. apply D. lia.
Qed.

Lemma pk_layout_empty pk : forall l, Forall fixw pk -> snd (fst (pk_layout pk [] l)) = pk.
Proof.
  induction pk as [|f pk IH]; intros l Hf; cbn [pk_layout]; [reflexivity|]. inversion Hf; subst.
  replace (size_of (f_type f) =? -1) with false by (symmetry; apply Z.eqb_neq; assumption). cbn [lookup].
  specialize (IH (l + size_of (f_type f)) ltac:(assumption)). destruct (pk_layout pk [] _) as [[pl pfs] ps]. cbn [fst snd] in *. congruence.
Qed.

Lemma rebuild r idxb m pk : forall l pre post,
  row_ok r pk -> Forall fixw pk -> present r pk -> l = Z.of_nat (length pre) ->
  (forall f p, In f pk -> lookup m (f_pb_idx f) = Some p ->
     peek idxb (Z.to_nat p) (Z.to_nat (size_of (f_type f))) = Some (colb r f)) ->
  get_full_primary_key idxb (pre ++ flat_map (colb r) (snd (fst (pk_layout pk m l))) ++ post) (snd (pk_layout pk m l)) pk
   = Some (flat_map (colb r) pk).
Proof.
  induction pk as [|f pk IH]; intros l pre post Hr Hf Hp -> Hm; cbn [pk_layout].
  - reflexivity.
  - inversion Hf as [|? ? E Hf']; inversion Hr as [|? ? Hr1 Hr']; inversion Hp as [|? ? Hp1 Hp']; subst.
    replace (size_of (f_type f) =? -1) with false by (symmetry; apply Z.eqb_neq; exact E).
    assert (Hl : Z.of_nat (length (colb r f)) = size_of (f_type f)).
    { apply colb_len; [constructor; [assumption|constructor]|assumption|assumption]. }
    destruct (lookup m (f_pb_idx f)) as [p|] eqn:L.
    + specialize (IH (Z.of_nat (length pre)) pre post Hr' Hf' Hp' eq_refl ltac:(intros; apply Hm; [right; assumption|assumption])).
      destruct (pk_layout pk m _) as [[pl pfs] ps]. cbn [fst snd get_full_primary_key flat_map] in *.
      change (1 =? 1) with true. cbn iota. rewrite (Hm f p (or_introl eq_refl) L). rewrite IH. reflexivity.
    + specialize (IH (Z.of_nat (length pre) + size_of (f_type f)) (pre ++ colb r f) post Hr' Hf' Hp'
        ltac:(rewrite app_length; lia) ltac:(intros; apply Hm; [right; assumption|assumption])).
      destruct (pk_layout pk m _) as [[pl pfs] ps]. cbn [fst snd get_full_primary_key flat_map] in *.
      change (-1 =? 1) with false. cbn iota. rewrite Nat2Z.id.
      replace (Z.to_nat (size_of (f_type f))) with (length (colb r f)) by lia.
      rewrite <- !app_assoc in *. rewrite peek_mid by reflexivity. rewrite IH. reflexivity.
Qed.

(* ---- the encoded primary key ---- *)

Lemma row_key_flat big r pk k : row_ok r pk -> row_key big r pk k ->
  k = flat_map (colb r) pk /\ present r pk /\ forall sub, incl sub pk -> encode_pk_loop big r sub = FOk (flat_map (colb r) sub) 0.
Proof.
  intros Hr Hk.
  assert (A : Forall (fun f => exists v, r (f_pb_idx f) = Some v) pk /\ k = flat_map (colb r) pk).
  { induction Hk as [|f v b fs k Hv He Hk IH]; [split; [constructor|reflexivity]|].
    inversion Hr as [|? ? [Ht Hok] Hr']; subst. destruct (IH Hr') as [A ->]. split; [constructor; eauto|].
    cbn [flat_map]. f_equal. unfold colb, col_value. rewrite Hv. rewrite encode_field_fenc in He by (apply Hok; exact Hv). congruence. }
  destruct A as [A ->]. split; [reflexivity|]. split.
  - clear - A. induction A as [|f fs [v Hv] _ IH]; constructor; [|exact IH]. unfold col_value. rewrite Hv. discriminate.
  - rewrite Forall_forall in A. unfold row_ok in Hr. rewrite Forall_forall in Hr.
    induction sub as [|f sub IH]; intros Hi; cbn [encode_pk_loop flat_map]; [reflexivity|].
    destruct (A f (Hi f (or_introl eq_refl))) as [v Hv]. destruct (Hr f (Hi f (or_introl eq_refl))) as [_ Hok].
    rewrite Hv, encode_field_fenc by (apply Hok; exact Hv). rewrite IH by (intros x Hx; apply Hi; right; exact Hx).
    unfold colb at 2. unfold col_value. rewrite Hv. reflexivity.
Qed.

(* ---- skipping variable-length columns ---- *)

Lemma skip_of_decode oversh big key flag fs : Forall (fun f => f_type f <> OTHER_TYPE) fs -> forall idx r0 pos r' pos',
  decode_key_loop oversh big key flag fs idx r0 pos = DOk (r', pos') -> skip_columns oversh key flag fs idx pos = DOk pos'.
Proof.
  induction 1 as [|f fs Ht _ IH]; intros idx r0 pos r' pos'; cbn [decode_key_loop skip_columns].
  - intros E. injection E as _ <-. reflexivity.
  - destruct (null_bit oversh flag idx) as [bit|]; [|discriminate].
    destruct (bit && f_can_null f); [apply IH|].
    destruct (decode_field big key (f_type f) pos) as [[v p]| | |] eqn:D; try discriminate. intros E.
    assert (X : match f_type f with STRING => match cstring (skipn pos key) with Some s => p = (pos + length s + 1)%nat | None => False end
                | t => p = (pos + Z.to_nat (size_of t))%nat end).
    { clear - D Ht. unfold decode_field, fixed, extract_string in D.
      destruct (f_type f); try congruence.
      all: match type of D with (if ?c then _ else _) = _ => destruct c; [discriminate|] end.
      all: match type of D with match ?x with Some _ => _ | None => _ end = _ => destruct x; [|discriminate] end.
      all: injection D as _ <-; reflexivity. }
    destruct (f_type f); try (subst p; eapply IH; exact E).
    destruct (cstring (skipn pos key)); [subst p; eapply IH; exact E|contradiction].
Qed.

(* ---- the schema a table can have ---- *)

Lemma ix_primary pk : ix_fields (ix (primary_index pk)) = pk.
Proof. unfold primary_index, update_index. destruct (layout pk 0 []). reflexivity. Qed.

Lemma len_primary pk : existsb f_can_null pk = false -> Forall fixw pk -> pk <> [] -> 0 < ix_length (primary_index pk).
Proof.
  intros Hn Hf Hne. unfold primary_index, update_index. rewrite Hn.
  destruct (layout_len pk 0 [] ltac:(lia)) as [[A B]|[A B]]; [|contradiction].
  destruct (layout pk 0 []) as [l0 m0]. cbn [fst] in B. cbn [ix_length]. subst l0.
  destruct pk as [|f pk]; [congruence|]. inversion Hf; subst. cbn [sizes].
  pose proof (size_pos f ltac:(assumption)). pose proof (sizes_nonneg pk ltac:(assumption)). lia.
Qed.

Lemma fixw_dec fs : Forall fixw fs \/ ~ Forall fixw fs.
Proof.
  induction fs as [|f fs [IH|IH]].
  - left; constructor.
  - destruct (Z.eq_dec (size_of (f_type f)) (-1)) as [E|E].
    + right. intros X. inversion X; contradiction.
    + left. constructor; assumption.
  - right. intros X. inversion X; contradiction.
Qed.

(* the cases of update_index *)
Lemma update_cases t fs pk : t = I_KEY \/ t = I_UNIQ ->
  let i := update_index t false fs pk in
  ix_type (ix i) = t /\ ix_fields (ix i) = fs /\ ix_global i = false /\ ix i = make_index t fs (ix_pk_fields (ix i)) /\
  ((ix_length i = -1 /\ (existsb f_can_null fs = true \/ ~ Forall fixw fs) /\ ix_overlap i = false /\ ix_pk_fields (ix i) = pk) \/
   (existsb f_can_null fs = false /\ Forall fixw fs /\ ix_length i = 1 + sizes fs /\
     ((ix_overlap i = false /\ ix_pk_fields (ix i) = pk) \/
      (ix_overlap i = true /\ Forall fixw pk /\
        exists m, ix_pk_fields (ix i) = snd (fst (pk_layout pk m 0)) /\ ix_pk_pos i = snd (pk_layout pk m 0) /\
        forall id p, lookup m id = Some p -> exists fs1 f fs2, fs = fs1 ++ f :: fs2 /\ f_pb_idx f = id /\ p = 1 + sizes fs1)))).
Proof.
  intros Ht.
  assert (U : update_index t false fs pk =
    let '(l0, m0) := layout fs 1 [] in
    let l := if existsb f_can_null fs then -1 else l0 in
      let m := if l =? -1 then [] else m0 in
      let '(pl, pfs, ps) := pk_layout pk m 0 in
      let pfs' := if pl =? -1 then pk else pfs in
      let ps' := if pl =? -1 then [] else ps in
      {| ix := mk_index t fs (existsb f_can_null fs) pfs'; ix_length := l;
         ix_overlap := if l =? -1 then false else negb (length pfs' =? length pk)%nat;
         ix_pk_pos := ps'; ix_global := false |}).
  { destruct Ht as [-> | ->]; reflexivity. }
  rewrite U; clear U. clear Ht.
  pose proof (layout_len fs 1 [] ltac:(lia)) as LL. pose proof (fun id p => layout_pos fs 1 [] id p ltac:(lia)) as LP.
  destruct (layout fs 1 []) as [l0 m0]. cbn [fst snd] in *. cbn zeta.
  assert (Bad : forall l, l = -1 -> (existsb f_can_null fs = true \/ ~ Forall fixw fs) ->
     (if existsb f_can_null fs then -1 else l0) = -1 -> (if l =? -1 then [] else m0) = [] -> True) by auto. clear Bad.
  destruct (existsb f_can_null fs) eqn:En; [|destruct LL as [[Hf ->]|[Hf ->]]].
  - change (-1 =? -1) with true. cbn iota. pose proof (pk_layout_len pk [] 0 ltac:(lia)) as PL. pose proof (pk_layout_empty pk 0) as PE.
    destruct (pk_layout pk [] 0) as [[pl pfs] ps]. cbn [fst snd ix ix_type ix_fields ix_pk_fields ix_length ix_overlap ix_pk_pos ix_global] in *.
    unfold make_index. rewrite En. repeat (split; [reflexivity|]). left. repeat split; auto.
    destruct PL as [[_ ->]|(Hp & _)]; [reflexivity|]. rewrite (PE Hp). destruct (pl =? -1); reflexivity.
  - pose proof (sizes_nonneg fs Hf). replace (1 + sizes fs =? -1) with false by (symmetry; apply Z.eqb_neq; lia).
    pose proof (pk_layout_len pk m0 0 ltac:(lia)) as PL.
    destruct (pk_layout pk m0 0) as [[pl pfs] ps] eqn:EP. cbn [fst snd ix ix_type ix_fields ix_pk_fields ix_length ix_overlap ix_pk_pos ix_global] in *.
    unfold make_index. rewrite En. repeat (split; [reflexivity|]). right. repeat (split; [first [reflexivity|assumption]|]).
    destruct PL as [[_ ->]|(Hp & Hl & pfs' & <- & Hle & Heq)].
    + left. change (-1 =? -1) with true. cbn iota. rewrite Nat.eqb_refl. auto.
    + replace (pl =? -1) with false by (symmetry; apply Z.eqb_neq; lia).
      destruct (Nat.eqb_spec (length pfs) (length pk)) as [E|E]; [left; auto|].
      right. split; [reflexivity|]. split; [exact Hp|]. exists m0. rewrite EP. cbn [fst snd]. repeat split.
      intros id p L. apply LP in L; [|assumption]. destruct L as [L|L]; [discriminate|exact L].
  - change (-1 =? -1) with true. cbn iota. pose proof (pk_layout_len pk [] 0 ltac:(lia)) as PL. pose proof (pk_layout_empty pk 0) as PE.
    destruct (pk_layout pk [] 0) as [[pl pfs] ps]. cbn [fst snd ix ix_type ix_fields ix_pk_fields ix_length ix_overlap ix_pk_pos ix_global] in *.
    unfold make_index. rewrite En. repeat (split; [reflexivity|]). left. repeat split; auto.
    destruct PL as [[_ ->]|(Hp & _)]; [reflexivity|]. rewrite (PE Hp). destruct (pl =? -1); reflexivity.
Qed.

Lemma pk_layout_incl pk m : forall l, incl (snd (fst (pk_layout pk m l))) pk.
Proof.
  induction pk as [|f pk IH]; intros l x; cbn [pk_layout]; [auto|].
  destruct (size_of (f_type f) =? -1); [intros []|].
  destruct (lookup m (f_pb_idx f)).
  - specialize (IH l x). destruct (pk_layout pk m l) as [[pl pfs] ps]. cbn [fst snd] in *. intros; right; auto.
  - specialize (IH (l + size_of (f_type f)) x). destruct (pk_layout pk m _) as [[pl pfs] ps]. cbn [fst snd] in *. intros [<-|X]; [left|right]; auto.
Qed.

(* what is written for a row *)
Lemma entry_form big t fs pk r pkb k v : t = I_KEY \/ t = I_UNIQ -> entry_ok r fs pk ->
  row_key big r pk pkb -> secondary_entry big (update_index t false fs pk) r = Some (k, v) ->
  let pre := [pflag 0 (map (col_value r) fs)] ++ flat_map (colb r) fs in
  let rest := flat_map (colb r) (ix_pk_fields (ix (update_index t false fs pk))) in
  (t = I_KEY -> k = pre ++ rest /\ v = []) /\ (t = I_UNIQ -> k = pre /\ v = rest).
Proof.
  intros Ht He Hk. pose proof (update_cases t fs pk Ht) as U. cbn zeta in U.
  destruct (row_key_flat big r pk pkb (eo_pk_row _ _ _ He) Hk) as (_ & Hp & Enc).
  set (i := update_index t false fs pk) in *. destruct U as (Tt & Tf & _ & Tm & Cs).
  assert (Hin : incl (ix_pk_fields (ix i)) pk).
  { destruct Cs as [(_ & _ & _ & ->)|(_ & _ & _ & [(_ & ->)|(_ & _ & m & -> & _)])]; [apply incl_refl|apply incl_refl|apply pk_layout_incl]. }
  specialize (Enc _ Hin). unfold secondary_entry. rewrite Tt.
  destruct (encode_key_secondary big t fs (ix_pk_fields (ix i)) r [] Ht (eo_row _ _ _ He) (eo_nullable _ _ _ He)) as (full & E).
  rewrite <- Tm in E. rewrite E. clear E. rewrite cenc_flat. unfold encode_primary_key. rewrite Tt, Enc. cbn [app] in *.
  intros Y. cbn zeta. split; intros ->; injection Y as <- <-; split; reflexivity.
Qed.

Lemma skipn_app_len {A} (a b : list A) : skipn (length a) (a ++ b) = b.
Proof. rewrite skipn_app, skipn_all, Nat.sub_diag. reflexivity. Qed.

Lemma fits_entry oversh big t fs pk r pkb k v start end_ : oversh 0 = Some 0 ->
  t = I_KEY \/ t = I_UNIQ -> entry_ok r fs pk ->
  row_key big r pk pkb -> secondary_entry big (update_index t false fs pk) r = Some (k, v) ->
  fits_region_range oversh big k v start end_ (primary_index pk) (update_index t false fs pk) = Fits (in_bounds pkb start end_).
Proof.
  intros Ho Ht He Hk Hs. pose proof (entry_form _ _ _ _ _ _ _ _ Ht He Hk Hs) as [FK FU].
  pose proof (update_cases t fs pk Ht) as U. cbn zeta in U.
  destruct (row_key_flat big r pk pkb (eo_pk_row _ _ _ He) Hk) as (Epk & Hp & _).
  set (i := update_index t false fs pk) in *. destruct U as (Tt & Tf & Tg & Tm & Cs).
  set (flag := pflag 0 (map (col_value r) fs)) in *.
  set (B := Fits (in_bounds pkb start end_)).
  assert (X : (start = None /\ end_ = None) \/
    fits_region_range oversh big k v start end_ (primary_index pk) i =
      let overlapping := (0 <? ix_length (primary_index pk)) && (0 <? ix_length i) && ix_overlap i in
      let rebuilt index_bytes pk_bytes :=
        match get_full_primary_key index_bytes pk_bytes (ix_pk_pos i) pk with
        | Some k => Fits (in_bounds k start end_) | None => Oob end in
      match t with
      | I_UNIQ => if overlapping then rebuilt k v else Fits (in_bounds v start end_)
      | _ =>
          if overlapping then
            if (Z.of_nat (length k) <? ix_length i) then Fits false
            else rebuilt k (skipn (Z.to_nat (ix_length i)) k)
          else if 0 <? ix_length i then
            if (Z.of_nat (length k) <? ix_length i) then Fits false
            else Fits (in_bounds (skipn (Z.to_nat (ix_length i)) k) start end_)
          else
            match extract_u8 big k 0 with
            | None => Oob
            | Some null_flag =>
                match skip_columns oversh k null_flag fs 0 1 with
                | DOk pos => if (length k <? pos)%nat then Fits false
                             else Fits (in_bounds (skipn pos k) start end_)
                | _ => Oob
                end
            end
      end).
  { unfold fits_region_range. rewrite Tt, Tf, Tg, ix_primary.
    destruct start, end_; auto; right; destruct Ht as [-> | ->]; reflexivity. }
  destruct X as [[-> ->]| ->]; [unfold B; reflexivity|].
  assert (Present : existsb f_can_null fs = false -> present r fs) by apply not_null_present.
  destruct Cs as [(Ll & Hnf & Lo & Lp)|(Hn & Hf & Ll & [(Lo & Lp)|(Lo & Hpf & m & Lp & Lpos & Lm)])]; rewrite Ll, Lo.
  - (* variable length *)
    rewrite Lp in FK, FU; rewrite <- Epk in FK, FU. cbn zeta. rewrite andb_false_r.
    destruct Ht as [-> | ->]; [|destruct (FU eq_refl) as [-> ->]; reflexivity].
    destruct (FK eq_refl) as [-> ->]. change (0 <? -1) with false. cbn iota.
    assert (Bf : 0 <= flag < 256).
    { destruct (existsb f_can_null fs) eqn:E.
      - pose proof (pflag_bound (map (col_value r) fs) 0) as Bd. rewrite map_length in Bd. specialize (Bd (eo_nullable _ _ _ He E)).
        change (2 ^ (8 - Z.of_nat 0)) with 256 in Bd. exact Bd.
      - unfold flag. rewrite pflag_no_null by (apply no_nullable_cols; exact E). lia. }
    assert (X8 : extract_u8 big (([flag] ++ flat_map (colb r) fs) ++ pkb) 0 = Some flag).
    { unfold extract_u8, extract_word. cbn. destruct big; cbn; f_equal; lia. }
    rewrite X8.
    assert (Hz : (0 + length fs <= 8)%nat \/ 0 * 2 ^ (8 - Z.of_nat 0) + pflag 0 (map (col_value r) fs) = 0).
    { destruct (existsb f_can_null fs) eqn:E; [left; apply (eo_nullable _ _ _ He); exact E|].
      right. rewrite pflag_no_null by (apply no_nullable_cols; exact E). lia. }
    destruct (dec_loop oversh big r fs 0 0 [flag] pkb (fun _ => None) Ho (eo_row _ _ _ He) (eo_distinct _ _ _ He)) as (r' & E & _);
      [intros E; pose proof (eo_nullable _ _ _ He E); lia|exact Hz|].
    rewrite Z.mul_0_l, Z.add_0_l in E. fold flag in E. rewrite cenc_flat in E.
    apply skip_of_decode in E; [|pose proof (eo_row _ _ _ He) as R; unfold row_ok in R; eapply Forall_impl; [|exact R]; cbn; tauto].
    rewrite app_assoc, <- app_length in E. change (length [flag]) with 1%nat in E. rewrite E. replace (length (_ ++ pkb) <? _)%nat with false
      by (symmetry; apply Nat.ltb_ge; rewrite !app_length; lia).
    rewrite skipn_app_len. reflexivity.
  - rewrite Lp in FK, FU; rewrite <- Epk in FK, FU. cbn zeta. rewrite andb_false_r.
    destruct Ht as [-> | ->]; [|destruct (FU eq_refl) as [-> ->]; reflexivity].
    destruct (FK eq_refl) as [-> ->]. pose proof (sizes_nonneg fs Hf).
    replace (0 <? 1 + sizes fs) with true by (symmetry; apply Z.ltb_lt; lia).
    assert (Len : Z.of_nat (length ([flag] ++ flat_map (colb r) fs)) = 1 + sizes fs).
    { rewrite app_length, Nat2Z.inj_add, flat_len; [reflexivity|apply (eo_row _ _ _ He)|exact Hf|apply Present; exact Hn]. }
    replace (Z.of_nat (length (([flag] ++ flat_map (colb r) fs) ++ pkb)) <? 1 + sizes fs) with false
      by (symmetry; apply Z.ltb_ge; rewrite app_length; lia).
    rewrite <- Len, Nat2Z.id, skipn_app_len. reflexivity.
  - pose proof (sizes_nonneg fs Hf).
    assert (Len : Z.of_nat (length ([flag] ++ flat_map (colb r) fs)) = 1 + sizes fs).
    { rewrite app_length, Nat2Z.inj_add, flat_len; [reflexivity|apply (eo_row _ _ _ He)|exact Hf|apply Present; exact Hn]. }
    replace (0 <? ix_length (primary_index pk)) with true
      by (symmetry; apply Z.ltb_lt, len_primary; [apply (eo_pk_not_null _ _ _ He)|exact Hpf|apply (eo_pk _ _ _ He)]).
    replace (0 <? 1 + sizes fs) with true by (symmetry; apply Z.ltb_lt; lia). cbn [andb]. cbn zeta.
    assert (Peek : forall post f p, In f pk -> lookup m (f_pb_idx f) = Some p ->
      peek (([flag] ++ flat_map (colb r) fs) ++ post) (Z.to_nat p) (Z.to_nat (size_of (f_type f))) = Some (colb r f)).
    { intros post f p Hin L. destruct (Lm _ _ L) as (fs1 & g & fs2 & Efs & Hid & ->).
      assert (Eg : g = f). { apply (eo_same _ _ _ He); [rewrite Efs; apply in_elt|exact Hin|exact Hid]. } subst g.
      pose proof (eo_row _ _ _ He) as R. pose proof (Present Hn) as P. unfold row_ok, present in R, P. rewrite Efs in R, P, Hf.
      apply Forall_app in R, P, Hf. destruct R as [R1 R2], P as [P1 P2], Hf as [F1 F2].
      clear - R1 R2 P1 P2 F1 F2 Efs. inversion R2; inversion P2; inversion F2; subst.
      assert (L1 : Z.of_nat (length (colb r f)) = size_of (f_type f)).
      { apply colb_len; [constructor; [assumption|constructor]|assumption|assumption]. }
      assert (L2 : Z.of_nat (length (flat_map (colb r) fs1)) = sizes fs1) by (apply flat_len; assumption).
      rewrite flat_map_app. cbn [flat_map].
      replace (Z.to_nat (size_of (f_type f))) with (length (colb r f)) by lia.
      replace (([flag] ++ flat_map (colb r) fs1 ++ colb r f ++ flat_map (colb r) fs2) ++ post)
        with (([flag] ++ flat_map (colb r) fs1) ++ colb r f ++ (flat_map (colb r) fs2 ++ post))
        by (rewrite <- !app_assoc; reflexivity).
      replace (Z.to_nat (1 + sizes fs1)) with (length ([flag] ++ flat_map (colb r) fs1))
        by (rewrite app_length; cbn [length]; lia).
      apply peek_mid. reflexivity. }
    rewrite Lpos, Lp in *.
    destruct Ht as [-> | ->].
    + destruct (FK eq_refl) as [-> ->].
      replace (Z.of_nat (length (([flag] ++ flat_map (colb r) fs) ++ _)) <? 1 + sizes fs) with false
        by (symmetry; apply Z.ltb_ge; rewrite app_length; lia).
      rewrite <- Len, Nat2Z.id, skipn_app_len.
      pose proof (rebuild r (([flag] ++ flat_map (colb r) fs) ++ flat_map (colb r) (snd (fst (pk_layout pk m 0)))) m pk 0 [] []
        (eo_pk_row _ _ _ He) Hpf Hp eq_refl (Peek _)) as R.
      rewrite app_nil_r in R. cbn [app] in R |- *. rewrite R, <- Epk. reflexivity.
    + destruct (FU eq_refl) as [-> ->].
      pose proof (rebuild r ([flag] ++ flat_map (colb r) fs) m pk 0 [] []
        (eo_pk_row _ _ _ He) Hpf Hp eq_refl) as R.
      rewrite app_nil_r in R. cbn [app] in R |- *. rewrite R, <- Epk; [reflexivity|].
      intros f p Hin L. rewrite <- (Peek [] f p Hin L), app_nil_r. reflexivity.
Qed.
