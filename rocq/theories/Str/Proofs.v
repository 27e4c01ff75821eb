(* Lemmas for PropertiesStr.v. *)
From Coq Require Import Bool ZArith NArith List Lia.
From Verif Require Import Str.Spec Str.Model.
Import ListNotations.
Open Scope Z_scope.

Lemma to_i32_id z : - 2^31 <= z < 2^31 -> to_i32 z = z.
Proof.
  intros. unfold to_i32. rewrite Z.mod_small; lia.
Qed.

Lemma len_nonneg s : 0 <= len s.
Proof. unfold len; lia. Qed.

Lemma len_app a b : len (a ++ b) = len a + len b.
Proof. unfold len. rewrite app_length. lia. Qed.

Lemma nth_skipn (s : bytes) k i : nth_error (skipn k s) i = nth_error s (k + i).
Proof.
  revert s; induction k as [|k IH]; intros s; [reflexivity|].
  destruct s as [|b s]; [destruct i; reflexivity|]. cbn [skipn plus nth_error]. apply IH.
Qed.

Lemma nth_firstn (s : bytes) n i :
  nth_error (firstn n s) i = if (i <? n)%nat then nth_error s i else None.
Proof.
  revert s i; induction n as [|n IH]; intros s i.
  - cbn. destruct i; reflexivity.
  - destruct s as [|b s], i as [|i]; cbn [firstn nth_error]; try reflexivity.
    + destruct (_ <? _)%nat; reflexivity.
    + rewrite IH. reflexivity.
Qed.

Lemma skip_skip (s : bytes) a b : skipn a (skipn b s) = skipn (b + a) s.
Proof.
  revert s; induction b as [|b IH]; intros s; [reflexivity|].
  destruct s; [now rewrite !skipn_nil|]. cbn [skipn plus]. apply IH.
Qed.

(* ---- find ---- *)

Lemma prefixb_spec sub s : prefixb sub s = true <-> exists b, s = sub ++ b.
Proof.
  revert s; induction sub as [|x sub IH]; intros s; cbn.
  - split; [exists s; reflexivity|reflexivity].
  - destruct s as [|y s]; [split; [discriminate|intros (b & E); discriminate]|].
    rewrite andb_true_iff, N.eqb_eq, IH. split.
    + intros (-> & b & ->). exists b; reflexivity.
    + intros (b & E). injection E as -> ->. split; [reflexivity|exists b; reflexivity].
Qed.

Lemma at_0 sub s : at_ sub s 0 <-> exists b, s = sub ++ b.
Proof.
  split.
  - intros (a & b & E & L). destruct a; [|discriminate]. exists b; exact E.
  - intros (b & E). exists [], b. split; [exact E|reflexivity].
Qed.

Lemma at_S sub x s i : at_ sub (x :: s) (S i) <-> at_ sub s i.
Proof.
  split.
  - intros (a & b & E & L). destruct a as [|y a]; [discriminate|].
    cbn in E, L. injection E as <- E. exists a, b. split; [exact E|lia].
  - intros (a & b & E & L). exists (x :: a), b. cbn. split; [rewrite E; reflexivity|lia].
Qed.

Lemma at_nil_S sub i : ~ at_ sub [] (S i).
Proof.
  intros (a & b & E & L). symmetry in E. apply app_eq_nil in E. destruct E as (-> & _). discriminate.
Qed.

Lemma find0_spec sub s :
  match find0 sub s with
  | Some i => first_at sub s i
  | None => forall j, ~ at_ sub s j
  end.
Proof.
  induction s as [|x s IH]; cbn [find0].
  - destruct (prefixb sub []) eqn:E.
    + split; [apply at_0, prefixb_spec; exact E|lia].
    + intros [|j] A; [|exact (at_nil_S _ _ A)]. apply at_0, prefixb_spec in A. congruence.
  - destruct (prefixb sub (x :: s)) eqn:E.
    + split; [apply at_0, prefixb_spec; exact E|lia].
    + assert (N : ~ at_ sub (x :: s) 0).
      { intros A. apply at_0, prefixb_spec in A. congruence. }
      destruct (find0 sub s) as [i|]; cbn [option_map].
      * destruct IH as (A & B). split; [apply at_S; exact A|].
        intros [|j] J; [exact N|]. rewrite at_S. apply B. lia.
      * intros [|j]; [exact N|]. rewrite at_S. apply IH.
Qed.

Lemma at_skip sub s p i : (p <= length s)%nat -> (at_ sub (skipn p s) i <-> at_ sub s (p + i)).
Proof.
  revert s; induction p as [|p IH]; intros s L; [reflexivity|].
  destruct s as [|x s]; [cbn in L; lia|]. cbn [skipn plus]. rewrite at_S. apply IH. cbn in L; lia.
Qed.

Lemma at_bound sub s i : at_ sub s i -> (i + length sub <= length s)%nat.
Proof. intros (a & b & -> & <-). rewrite !app_length. lia. Qed.

Lemma find_from_spec sub s p :
  match find_from sub s p with
  | Some i => (p <= i)%nat /\ at_ sub s i /\ forall j, (p <= j < i)%nat -> ~ at_ sub s j
  | None => forall j, (p <= j)%nat -> ~ at_ sub s j
  end.
Proof.
  unfold find_from. destruct (Nat.leb_spec p (length s)) as [L|L].
  - pose proof (find0_spec sub (skipn p s)) as F.
    destruct (find0 sub (skipn p s)) as [i|]; cbn [option_map].
    + destruct F as (A & B). split; [lia|]. split; [apply at_skip; assumption|].
      intros j J A'. apply (B (j - p)%nat); [lia|]. apply at_skip; [exact L|].
      replace (p + (j - p))%nat with j by lia. exact A'.
    + intros j J A'. apply (F (j - p)%nat). apply at_skip; [exact L|].
      replace (p + (j - p))%nat with j by lia. exact A'.
  - intros j J A. apply at_bound in A. lia.
Qed.

(* ---- pieces ---- *)

Lemma first_at_parts sub s i : first_at sub s i ->
  s = firstn i s ++ sub ++ skipn (i + length sub) s /\ length (firstn i s) = i.
Proof.
  intros ((a & b & -> & <-) & _).
  rewrite firstn_app, firstn_all, Nat.sub_diag. cbn [firstn]. rewrite app_nil_r.
  split; [|reflexivity]. f_equal. f_equal.
  rewrite app_assoc, <- app_length. symmetry.
  rewrite skipn_app, skipn_all, Nat.sub_diag. reflexivity.
Qed.

Lemma pieces_exist sep : sep <> [] -> forall s, exists l, Pieces sep s l.
Proof.
  intros NE s. remember (length s) as n eqn:E. revert s E.
  induction n as [n IH] using lt_wf_ind; intros s E.
  pose proof (find0_spec sep s) as F. destruct (find0 sep s) as [i|].
  - destruct (first_at_parts _ _ _ F) as (P & L).
    destruct (IH (length (skipn (i + length sep) s))) with (s := skipn (i + length sep) s)
      as (l & Pl); [|reflexivity|].
    + subst n. rewrite P at 2. rewrite !app_length.
      destruct sep; [congruence|]. cbn [length]. lia.
    + exists (firstn i s :: l). rewrite P at 1. apply P_cut; [|exact Pl].
      rewrite <- P, L. exact F.
  - exists [s]. apply P_last. exact F.
Qed.

Lemma pieces_join sep s l : Pieces sep s l -> join sep l = s /\ l <> [].
Proof.
  induction 1 as [s N|a b l F P (J & NN)]; [split; [reflexivity|discriminate]|].
  split; [|discriminate]. destruct l as [|x l]; [congruence|].
  cbn [join] in *. rewrite J. reflexivity.
Qed.

(** The offsets at which the separators stand. *)
Fixpoint offs (sep : bytes) (at0 : nat) (l : list bytes) : list nat :=
  match l with
  | p :: ((_ :: _) as r) => (at0 + length p)%nat :: offs sep (at0 + length p + length sep) r
  | _ => []
  end.

Lemma first_unique sub s i j : first_at sub s i -> first_at sub s j -> i = j.
Proof.
  intros (A & B) (A' & B').
  destruct (lt_eq_lt_dec i j) as [[L|E]|L]; [|exact E|].
  - exfalso; exact (B' _ L A).
  - exfalso; exact (B _ L A').
Qed.

Lemma find_first sub s i : first_at sub s i -> find0 sub s = Some i.
Proof.
  intros F. pose proof (find0_spec sub s) as G. destruct (find0 sub s) as [j|].
  - f_equal. exact (first_unique _ _ _ _ G F).
  - exfalso; exact (G _ (proj1 F)).
Qed.

Lemma find_none sub s : (forall j, ~ at_ sub s j) -> find0 sub s = None.
Proof.
  intros F. pose proof (find0_spec sub s) as G. destruct (find0 sub s) as [j|]; [|reflexivity].
  exfalso; exact (F _ (proj1 G)).
Qed.

Lemma skip_app_len (a b : bytes) : skipn (length a) (a ++ b) = b.
Proof. rewrite skipn_app, skipn_all, Nat.sub_diag. reflexivity. Qed.

Lemma first_app_len (a b : bytes) : firstn (length a) (a ++ b) = a.
Proof. rewrite firstn_app, firstn_all, Nat.sub_diag. cbn. apply app_nil_r. Qed.

Lemma cuts_offs sep t l : sep <> [] -> Pieces sep t l ->
  forall pre fuel, (length t < fuel)%nat ->
  cuts fuel sep (pre ++ t) (length pre) = offs sep (length pre) l.
Proof.
  intros NE P. induction P as [s N|a b l F P IH]; intros pre fuel L.
  - destruct fuel as [|fuel]; [lia|]. cbn [cuts offs]. unfold find_from.
    rewrite app_length. destruct (Nat.leb_spec (length pre) (length pre + length s)); [|lia].
    rewrite skip_app_len, (find_none _ _ N). reflexivity.
  - destruct fuel as [|fuel]; [lia|]. cbn [cuts]. unfold find_from.
    rewrite app_length.
    destruct (Nat.leb_spec (length pre) (length pre + length (a ++ sep ++ b))); [|lia].
    rewrite skip_app_len, (find_first _ _ _ F). cbn [option_map].
    destruct l as [|x l].
    { exfalso. apply (proj2 (pieces_join _ _ _ P)). reflexivity. }
    cbn [offs]. f_equal.
    specialize (IH (pre ++ a ++ sep) fuel).
    rewrite <- !app_assoc in IH. rewrite !app_length, Nat.add_assoc in IH.
    apply IH. revert L. rewrite !app_length. destruct sep; [congruence|]. cbn [length]. lia.
Qed.

Lemma cuts_all sep s l : sep <> [] -> Pieces sep s l ->
  cuts (S (length s)) sep s 0 = offs sep 0 l.
Proof.
  intros NE P. exact (cuts_offs sep s l NE P [] (S (length s)) (Nat.lt_succ_diag_r _)).
Qed.

Lemma offs_length sep k l : l <> [] -> S (length (offs sep k l)) = length l.
Proof.
  revert k; induction l as [|p [|q l] IH]; intros k N; [congruence|reflexivity|].
  change (length (p :: q :: l)) with (S (length (q :: l))).
  rewrite <- (IH (k + length p + length sep)%nat) by discriminate. reflexivity.
Qed.

Lemma join_cons sep p l : l <> [] -> join sep (p :: l) = p ++ sep ++ join sep l.
Proof. destruct l; [congruence|reflexivity]. Qed.

Lemma firstn_cons_ne {A} n (x : A) l : firstn (S n) (x :: l) <> [].
Proof. discriminate. Qed.

(** The text before the (n+1)-th separator is the first n+1 pieces. *)
Lemma offs_prefix sep : forall l k n o, nth_error (offs sep k l) n = Some o ->
  (k <= o)%nat /\ firstn (o - k) (join sep l) = join sep (firstn (S n) l).
Proof.
  induction l as [|p [|q l] IH]; intros k n o; cbn [offs]; try (destruct n; discriminate).
  destruct n as [|n].
  - cbn [nth_error]. intros E; injection E as <-. split; [lia|].
    replace (k + length p - k)%nat with (length p) by lia.
    rewrite join_cons by discriminate. rewrite first_app_len. reflexivity.
  - cbn [nth_error]. intros E. destruct (IH _ _ _ E) as (L & F). split; [lia|].
    rewrite join_cons by discriminate.
    replace (o - k)%nat with (length p + (length sep + (o - (k + length p + length sep))))%nat by lia.
    rewrite firstn_app_2, firstn_app_2, F.
    change (firstn (S (S n)) (p :: q :: l)) with (p :: firstn (S n) (q :: l)).
    rewrite join_cons by discriminate. reflexivity.
Qed.

(** The text after it is the rest. *)
Lemma skipn_app_2' (a b : bytes) n : skipn (length a + n) (a ++ b) = skipn n b.
Proof.
  rewrite <- skip_skip, skip_app_len. reflexivity.
Qed.

Lemma offs_suffix sep : forall l k n o, nth_error (offs sep k l) n = Some o ->
  skipn (o - k + length sep) (join sep l) = join sep (skipn (S n) l).
Proof.
  induction l as [|p [|q l] IH]; intros k n o; cbn [offs]; try (destruct n; discriminate).
  destruct n as [|n].
  - cbn [nth_error]. intros E; injection E as <-.
    replace (k + length p - k + length sep)%nat with (length p + length sep)%nat by lia.
    rewrite join_cons by discriminate. rewrite skipn_app_2'. rewrite skip_app_len. reflexivity.
  - cbn [nth_error]. intros E. pose proof (IH _ _ _ E) as F.
    destruct (offs_prefix sep (q :: l) _ _ _ E) as (L & _).
    rewrite join_cons by discriminate.
    replace (o - k + length sep)%nat
      with (length p + (length sep + (o - (k + length p + length sep) + length sep)))%nat by lia.
    rewrite !skipn_app_2', F. reflexivity.
Qed.

Lemma substring_index_ok s sep n : sep <> [] -> - 2^31 < n < 2^31 -> n <> 0 ->
  exists r, substring_index (VStr s) (VStr sep) (Some n) = RStr r /\
            is_substring_index s sep n r.
Proof.
  intros NE R NZ. unfold substring_index, num32. cbn [is_null nnull orb get_string].
  rewrite to_i32_id by lia.
  destruct (n =? 0) eqn:E0; [lia|]. destruct sep as [|c sep']; [congruence|].
  set (sep := c :: sep') in *. destruct (pieces_exist sep NE s) as (l & P).
  cbv zeta. rewrite (cuts_all _ _ _ NE P).
  destruct (pieces_join _ _ _ P) as (J & NN).
  pose proof (offs_length sep 0 l NN) as OL.
  destruct (0 <? n) eqn:EN.
  - destruct (n <=? Z.of_nat (length (offs sep 0 l))) eqn:EL.
    + destruct (nth_error (offs sep 0 l) (Z.to_nat (n - 1))) as [k|] eqn:EK.
      * eexists; split; [reflexivity|]. exists l. split; [exact P|]. rewrite EN.
        destruct (offs_prefix _ _ _ _ _ EK) as (_ & F). rewrite Nat.sub_0_r in F.
        rewrite J in F. rewrite F. f_equal. f_equal. lia.
      * apply nth_error_None in EK. lia.
    + eexists; split; [reflexivity|]. exists l. split; [exact P|]. rewrite EN.
      rewrite firstn_all2 by lia. congruence.
  - destruct (n =? - 2^31) eqn:EM; [lia|].
    destruct (- n <=? Z.of_nat (length (offs sep 0 l))) eqn:EL.
    + destruct (nth_error _ _) as [k|] eqn:EK.
      * eexists; split; [reflexivity|]. exists l. split; [exact P|]. rewrite EN.
        pose proof (offs_suffix _ _ _ _ _ EK) as F. rewrite Nat.sub_0_r in F.
        rewrite J in F. rewrite F. f_equal. f_equal. lia.
      * apply nth_error_None in EK. lia.
    + eexists; split; [reflexivity|]. exists l. split; [exact P|]. rewrite EN.
      replace (length l - Z.to_nat (- n))%nat with 0%nat by lia. cbn [skipn]. congruence.
Qed.

(* ---- split_part ---- *)

Lemma split_loop_ok sep t l : sep <> [] -> Pieces sep t l ->
  forall pre fuel cur want, (length t < fuel)%nat -> cur <= want ->
  split_loop fuel (pre ++ t) sep (length pre) cur want
    = RStr (nth (Z.to_nat (want - cur)) l []).
Proof.
  intros NE P. induction P as [s N|a b l F P IH]; intros pre fuel cur want L C.
  - destruct fuel as [|fuel]; [lia|]. cbn [split_loop]. unfold find_from.
    rewrite app_length. destruct (Nat.leb_spec (length pre) (length pre + length s)); [|lia].
    rewrite skip_app_len, (find_none _ _ N). cbn [option_map].
    destruct (cur =? want) eqn:E.
    + replace (Z.to_nat (want - cur)) with 0%nat by lia. reflexivity.
    + destruct (Z.to_nat (want - cur)) as [|[|m]] eqn:EM; [lia|reflexivity|reflexivity].
  - destruct fuel as [|fuel]; [lia|]. cbn [split_loop]. unfold find_from.
    rewrite app_length.
    destruct (Nat.leb_spec (length pre) (length pre + length (a ++ sep ++ b))); [|lia].
    rewrite skip_app_len, (find_first _ _ _ F). cbn [option_map].
    destruct (cur =? want) eqn:E.
    + replace (Z.to_nat (want - cur)) with 0%nat by lia. cbn [nth].
      replace (length pre + length a - length pre)%nat with (length a) by lia.
      rewrite first_app_len. reflexivity.
    + specialize (IH (pre ++ a ++ sep) fuel (cur + 1) want).
      rewrite <- !app_assoc in IH. rewrite !app_length, Nat.add_assoc in IH.
      rewrite IH; [| |lia].
      * replace (Z.to_nat (want - cur)) with (S (Z.to_nat (want - (cur + 1)))) by lia.
        reflexivity.
      * revert L. rewrite !app_length. destruct sep; [congruence|]. cbn [length]. lia.
Qed.

Lemma split_part_ok s sep n : sep <> [] -> 1 <= n < 2^31 ->
  exists r, split_part (VStr s) (VStr sep) (Some n) = RStr r /\ is_split_part s sep n r.
Proof.
  intros NE R. unfold split_part, num32. cbn [is_null nnull orb get_string].
  rewrite to_i32_id by lia. cbv zeta. destruct (n <=? 0) eqn:E; [lia|].
  destruct (pieces_exist sep NE s) as (l & P).
  rewrite (split_loop_ok sep s l NE P [] _ 1 n); [|lia|lia].
  eexists; split; [reflexivity|]. exists l. split; [exact P|reflexivity].
Qed.

(* ---- replace ---- *)

Lemma replace_loop_ok from to t l : from <> [] -> Pieces from t l ->
  forall pre fuel, (length t < fuel)%nat ->
  replace_loop fuel from to (pre ++ t) (length pre) = Some (pre ++ join to l).
Proof.
  intros NE P. induction P as [s N|a b l F P IH]; intros pre fuel L.
  - destruct fuel as [|fuel]; [lia|]. cbn [replace_loop]. unfold find_from.
    rewrite app_length. destruct (Nat.leb_spec (length pre) (length pre + length s)); [|lia].
    rewrite skip_app_len, (find_none _ _ N). reflexivity.
  - destruct fuel as [|fuel]; [lia|]. cbn [replace_loop]. unfold find_from.
    rewrite app_length.
    destruct (Nat.leb_spec (length pre) (length pre + length (a ++ from ++ b))); [|lia].
    rewrite skip_app_len, (find_first _ _ _ F). cbn [option_map].
    rewrite firstn_app_2, first_app_len.
    rewrite <- Nat.add_assoc, skipn_app_2', skipn_app_2', skip_app_len.
    specialize (IH (pre ++ a ++ to) fuel).
    rewrite <- !app_assoc in IH. rewrite !app_length, Nat.add_assoc in IH.
    rewrite <- !app_assoc. rewrite IH.
    + rewrite join_cons; [reflexivity|]. exact (proj2 (pieces_join _ _ _ P)).
    + revert L. rewrite !app_length. destruct from; [congruence|]. cbn [length]. lia.
Qed.

Lemma replace_ok s from to : from <> [] ->
  exists r, replace (VStr s) (VStr from) (VStr to) = RStr r /\ is_replace s from to r.
Proof.
  intros NE. unfold replace. cbn [is_null str_val].
  destruct from as [|c f]; [congruence|]. set (from := c :: f) in *.
  destruct (pieces_exist from NE s) as (l & P).
  rewrite (replace_loop_ok from to s l NE P []) by lia.
  eexists; split; [reflexivity|]. exists l. split; [exact P|reflexivity].
Qed.

Lemma replace_kernel_ok from to t l : from <> [] -> Pieces from t l ->
  forall fuel, (length t < fuel)%nat -> replace_kernel fuel from to t = join to l.
Proof.
  intros NE P. induction P as [s N|a b l F P IH]; intros fuel L.
  - destruct fuel as [|fuel]; [lia|]. cbn [replace_kernel].
    rewrite (find_none _ _ N). reflexivity.
  - destruct fuel as [|fuel]; [lia|]. cbn [replace_kernel].
    rewrite (find_first _ _ _ F), first_app_len, skipn_app_2', skip_app_len.
    rewrite IH.
    + rewrite join_cons; [reflexivity|]. exact (proj2 (pieces_join _ _ _ P)).
    + revert L. rewrite !app_length. destruct from; [congruence|]. cbn [length]. lia.
Qed.

(* ---- the others ---- *)

Lemma substr_ok s p n : len s < 2^31 -> - 2^31 <= p < 2^31 ->
  match n with None => True | Some n => - 2^31 <= n < 2^31 end ->
  exists r, substr (VStr s) (Some p) (option_map Some n) = RStr r /\ is_substring s p n r.
Proof.
  intros LS RP RN. unfold substr, num32. cbn [is_null nnull orb get_string].
  rewrite to_i32_id by lia.
  assert (Z0 : match option_map (@Some Z) n with Some None => true | _ => false end = false)
    by (destruct n; reflexivity).
  rewrite Z0. cbv zeta.
  pose proof (len_nonneg s). unfold is_substring, start_of.
  set (pos := if p <? 0 then len s + p else p - 1).
  destruct ((pos <? 0) || (len s <=? pos)) eqn:OUT.
  - exists []. split; [reflexivity|].
    replace ((1 <=? p) && (p <=? len s)) with false by (subst pos; destruct (p <? 0) eqn:?; lia).
    replace ((p <? 0) && (- p <=? len s)) with false by (subst pos; destruct (p <? 0) eqn:?; lia).
    reflexivity.
  - assert (ST : (if (1 <=? p) && (p <=? len s) then Some (p - 1)
                  else if (p <? 0) && (- p <=? len s) then Some (len s + p) else None) = Some pos).
    { subst pos. destruct (p <? 0) eqn:E.
      - replace (1 <=? p) with false by lia. replace (- p <=? len s) with true by lia. reflexivity.
      - replace (1 <=? p) with true by lia. replace (p <=? len s) with true by lia. reflexivity. }
    rewrite ST. destruct n as [n|]; cbn [option_map].
    + rewrite to_i32_id by lia. destruct (n <=? 0) eqn:EN.
      * eexists; split; [reflexivity|]. intros i.
        clear ST OUT Z0. destruct (Z.ltb_spec (Z.of_nat i) n); [apply Z.leb_le in EN; lia|].
        destruct i; reflexivity.
      * eexists; split; [reflexivity|]. intros i. rewrite nth_firstn, nth_skipn.
        clear ST OUT Z0. apply Z.leb_gt in EN.
        destruct (Nat.ltb_spec i (Z.to_nat n)), (Z.ltb_spec (Z.of_nat i) n); reflexivity || lia.
    + eexists; split; [reflexivity|]. intros i. apply nth_skipn.
Qed.

Lemma firstn_len n (s : bytes) : len (firstn n s) = Z.min (Z.of_nat n) (len s).
Proof. unfold len. rewrite firstn_length. lia. Qed.
Lemma skipn_len n (s : bytes) : len (skipn n s) = Z.max 0 (len s - Z.of_nat n).
Proof. unfold len. rewrite skipn_length. lia. Qed.

Lemma left_ok s n : - 2^31 <= n < 2^31 ->
  exists r, left_ (VStr s) (Some n) = RStr r /\ is_left s n r.
Proof.
  intros R. unfold left_, num32. cbn [is_null nnull orb str_val].
  rewrite to_i32_id by lia. cbv zeta. pose proof (len_nonneg s).
  destruct (n <=? 0) eqn:E; (eexists; split; [reflexivity|]).
  - exists s. split; [reflexivity|]. change (len []) with 0. lia.
  - exists (skipn (Z.to_nat n) s). split; [symmetry; apply firstn_skipn|].
    rewrite firstn_len. lia.
Qed.

Lemma right_ok s n : - 2^31 <= n < 2^31 ->
  exists r, right_ (VStr s) (Some n) = RStr r /\ is_right s n r.
Proof.
  intros R. unfold right_, num32. cbn [is_null nnull orb str_val].
  rewrite to_i32_id by lia. cbv zeta. pose proof (len_nonneg s).
  destruct (n <=? 0) eqn:E; (eexists; split; [reflexivity|]).
  - exists s. split; [symmetry; apply app_nil_r|]. change (len []) with 0. lia.
  - eexists. split; [symmetry; apply firstn_skipn|].
    rewrite skipn_len. destruct (len s - n <? 0) eqn:E2; lia.
Qed.

Lemma drop_lead_ok s : exists a, s = a ++ drop_lead s /\ blanks a /\ no_lead (drop_lead s).
Proof.
  induction s as [|b s (a & E & B & N)]; cbn [drop_lead].
  - exists []. split; [reflexivity|]. split; [constructor|]. intros t; discriminate.
  - destruct (N.eqb_spec b sp) as [Q|Q].
    + exists (b :: a). split; [cbn; congruence|]. split; [constructor; assumption|exact N].
    + exists []. split; [reflexivity|]. split; [constructor|]. intros t F. congruence.
Qed.

Lemma drop_trail_ok s : exists b, s = drop_trail s ++ b /\ blanks b /\ no_trail (drop_trail s).
Proof.
  destruct (drop_lead_ok (rev s)) as (a & E & B & N).
  exists (rev a). unfold drop_trail. split; [|split].
  - rewrite <- rev_app_distr, <- E. symmetry; apply rev_involutive.
  - apply Forall_rev. exact B.
  - intros t F. apply (N (rev t)).
    rewrite <- (rev_involutive (drop_lead (rev s))), F, rev_app_distr. reflexivity.
Qed.

Lemma drop_trail_lead s : no_lead s -> no_lead (drop_trail s).
Proof.
  intros N t F. destruct (drop_trail_ok s) as (b & E & _ & _).
  rewrite F in E. exact (N _ E).
Qed.

Lemma padding_length pad : pad <> [] -> forall fuel n, (n < fuel)%nat ->
  length (padding fuel n pad) = n.
Proof.
  intros NE. assert (PL : (0 < length pad)%nat) by (destruct pad; [congruence|cbn; lia]).
  induction fuel as [|fuel IH]; intros n L; [lia|]. cbn [padding].
  destruct (Nat.ltb_spec (length pad) n).
  - rewrite app_length, IH by lia. lia.
  - rewrite firstn_length. lia.
Qed.

Lemma padding_cyclic pad : pad <> [] -> forall fuel n, (n < fuel)%nat ->
  cyclic pad (padding fuel n pad).
Proof.
  intros NE. assert (PL : (0 < length pad)%nat) by (destruct pad; [congruence|cbn; lia]).
  induction fuel as [|fuel IH]; intros n L i; [lia|].
  rewrite padding_length by assumption. intros B. cbn [padding].
  destruct (Nat.ltb_spec (length pad) n) as [C|C].
  - destruct (Nat.ltb_spec i (length pad)) as [D|D].
    + rewrite nth_error_app1 by lia. rewrite Nat.mod_small by lia. reflexivity.
    + rewrite nth_error_app2 by lia.
      rewrite IH; [|lia|rewrite padding_length by (assumption || lia); lia].
      replace i with ((i - length pad) + 1 * length pad)%nat at 2 by lia.
      rewrite Nat.mod_add by lia. reflexivity.
  - rewrite nth_firstn. destruct (Nat.ltb_spec i n); [|lia].
    rewrite Nat.mod_small by lia. reflexivity.
Qed.

Lemma left_cut s n : 0 < n -> n <= len s -> is_left s n (firstn (Z.to_nat n) s).
Proof.
  intros P L. exists (skipn (Z.to_nat n) s). split; [symmetry; apply firstn_skipn|].
  rewrite firstn_len. lia.
Qed.

Lemma lpad_ok s n pad : 1 <= n <= 65535 -> pad <> [] ->
  exists r, lpad (VStr s) (Some n) (VStr pad) = RStr r /\ is_lpad s n pad r.
Proof.
  intros R NE. unfold lpad, is_lpad. cbn [get_string num64].
  replace ((n <=? 0) || (65535 <? n)) with false by lia. cbv zeta.
  destruct (n <=? len s) eqn:E.
  - eexists; split; [reflexivity|]. apply left_cut; lia.
  - destruct (Nat.eqb_spec (length pad) 0) as [Q|Q]; [destruct pad; [congruence|discriminate]|].
    eexists; split; [reflexivity|]. eexists; split; [reflexivity|].
    split; [apply padding_cyclic; [exact NE|lia]|].
    rewrite len_app. unfold len in *. rewrite padding_length by (assumption || lia). lia.
Qed.

Lemma rpad_ok s n pad : 1 <= n <= 65535 -> pad <> [] ->
  exists r, rpad (VStr s) (Some n) (VStr pad) = RStr r /\ is_rpad s n pad r.
Proof.
  intros R NE. unfold rpad, is_rpad. cbn [get_string num64].
  replace ((n <=? 0) || (65535 <? n)) with false by lia. cbv zeta.
  destruct (n <=? len s) eqn:E.
  - eexists; split; [reflexivity|]. apply left_cut; lia.
  - destruct (Nat.eqb_spec (length pad) 0) as [Q|Q]; [destruct pad; [congruence|discriminate]|].
    eexists; split; [reflexivity|]. eexists; split; [reflexivity|].
    split; [apply padding_cyclic; [exact NE|lia]|].
    rewrite len_app. unfold len in *. rewrite padding_length by (assumption || lia). lia.
Qed.

Lemma insert_ok s p n new : len s < 2^31 -> - 2^31 <= p < 2^31 -> 1 <= n < 2^31 ->
  exists r, insert (VStr s) (Some p) (Some n) (VStr new) = RStr r /\ is_insert s p n new r.
Proof.
  intros LS RP RN. unfold insert, num32. cbn [is_null nnull orb str_val get_string].
  rewrite !to_i32_id by lia. cbv zeta. unfold is_insert. pose proof (len_nonneg s).
  destruct (p <? 1) eqn:E1.
  { eexists; split; [reflexivity|]. replace (1 <=? p) with false by lia. reflexivity. }
  destruct (n <=? 0) eqn:E2; [lia|].
  destruct (len s <=? p - 1) eqn:E3.
  { eexists; split; [reflexivity|]. replace (p <=? len s) with false by lia.
    rewrite andb_false_r. reflexivity. }
  eexists; split; [reflexivity|].
  replace ((1 <=? p) && (p <=? len s)) with true by lia.
  exists (firstn (Z.to_nat (p - 1)) s),
         (firstn (Z.to_nat n) (skipn (Z.to_nat (p - 1)) s)),
         (skipn (Z.to_nat (p - 1 + n)) s).
  split; [|split; [reflexivity|split]].
  - rewrite <- (firstn_skipn (Z.to_nat (p - 1)) s) at 1. f_equal.
    rewrite <- (firstn_skipn (Z.to_nat n) (skipn (Z.to_nat (p - 1)) s)) at 1. f_equal.
    rewrite skip_skip. f_equal. lia.
  - rewrite firstn_len. lia.
  - rewrite firstn_len, skipn_len. destruct (0 <=? n) eqn:?; [|lia]. cbn [andb].
    destruct (n <=? len s - (p - 1)) eqn:?; lia.
Qed.

Lemma locate_ok sub s p : - 2^31 < p < 2^31 ->
  exists r, locate (VStr sub) (VStr s) (Some (Some p)) = RInt r /\ is_locate sub s p r.
Proof.
  intros R. unfold locate, num32. cbn [is_null orb get_string].
  rewrite to_i32_id by lia. cbv zeta. destruct (p - 1 <? - 2^31) eqn:E; [lia|].
  destruct (p - 1 <? 0) eqn:E1.
  - exists 0. split; [reflexivity|]. unfold is_locate. cbn. left. lia.
  - pose proof (find_from_spec sub s (Z.to_nat (p - 1))) as F.
    destruct (find_from _ _ _) as [i|].
    + destruct F as (A & B & C). eexists; split; [reflexivity|]. unfold is_locate.
      destruct (Z.of_nat i + 1 =? 0) eqn:?; [lia|].
      split; [lia|]. split; [lia|]. split.
      * replace (Z.to_nat (Z.of_nat i + 1 - 1)) with i by lia. exact B.
      * intros j J. apply C. lia.
    + exists 0. split; [reflexivity|]. unfold is_locate. cbn [Z.eqb]. right.
      intros i J. apply F. lia.
Qed.

Lemma concat_ws_loop_ok sep l acc :
  concat_ws_loop sep l acc =
  match acc, map get_string (filter (fun v => negb (is_null v)) l) with
  | None, [] => None
  | None, r => Some (join sep r)
  | Some a, r => Some (join sep (a :: r))
  end.
Proof.
  revert acc; induction l as [|v l IH]; intros acc; cbn [concat_ws_loop filter].
  - destruct acc; reflexivity.
  - destruct (is_null v); cbn [negb]; [apply IH|].
    rewrite IH. cbn [map]. destruct acc as [a|].
    + set (r := map _ _). f_equal. destruct r; cbn [join]; [reflexivity|].
      rewrite <- !app_assoc. reflexivity.
    + set (r := map _ _). destruct r; reflexivity.
Qed.

Lemma concat_loop_ok l acc :
  concat_ l acc = if existsb is_null l then RNull else RStr (acc ++ List.concat (map get_string l)).
Proof.
  revert acc; induction l as [|v l IH]; intros acc; cbn [concat_ existsb map List.concat].
  - now rewrite app_nil_r.
  - destruct (is_null v); [reflexivity|]. cbn [orb]. rewrite IH, <- app_assoc. reflexivity.
Qed.
