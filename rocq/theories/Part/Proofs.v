From Verif.Part Require Import Model Spec.
From Coq Require Import List ZArith Bool Lia Permutation.
Import ListNotations.
Local Open Scope Z_scope.

Lemma ptype_eqb_spec a b : reflect (a = b) (ptype_eqb a b).
Proof. destruct a, b; cbn; constructor; congruence. Qed.

Lemma specified_shared p q : specified_with p q = true <-> shared p q.
Proof.
  unfold specified_with, shared, usable.
  destruct (ptype_eqb_spec (p_type p) TAdditional) as [Ep|Np]; destruct (ptype_eqb_spec (p_type q) TAdditional) as [Eq|Nq]; cbn [orb].
  - rewrite Ep, Eq. cbn. split; auto.
  - split.
    + destruct (ptype_eqb_spec (p_type p) (p_type q)); [congruence|discriminate].
    + intros [[_ X]|(T & [X _] & _)]; congruence.
  - split.
    + destruct (ptype_eqb_spec (p_type p) (p_type q)); [congruence|discriminate].
    + intros [[X _]|(T & _ & X & _)]; congruence.
  - destruct (p_cold p) eqn:Cp; cbn [negb andb].
    + split; auto. intros _. right. exists (p_type q). auto.
    + destruct (p_cold q) eqn:Cq; cbn [negb andb].
      * split; auto. intros _. right. exists (p_type p). auto.
      * destruct (ptype_eqb_spec (p_type p) (p_type q)) as [E|N]; cbn.
        -- split; auto. intros _. right. exists (p_type p). auto.
        -- split; [discriminate|]. intros [[X _]|(T & [_ [X|X]] & [_ [Y|Y]])]; congruence.
Qed.

Lemma meet p q :
  (match bcmp (bmax (p_left p) (p_left q)) (bmin (p_right p) (p_right q)) with Lt => true | _ => false end) = true <-> overlap p q.
Proof.
  unfold overlap, holds, bmax, bmin. destruct (p_left p) as [a|], (p_left q) as [b|]; cbn [bcmp from].
  2-4: destruct (p_right p) as [c|], (p_right q) as [d|]; cbn [bcmp before]; (split; [|intros (z & [A B] & C & D); try tauto]);
       try (destruct (Z.compare_spec c d)); discriminate.
  destruct (Z.compare_spec a b) as [E|L|G]; destruct (p_right p) as [c|], (p_right q) as [d|]; cbn [bcmp before];
    try (destruct (Z.compare_spec c d)); cbn [bcmp];
    (split; [intros X; try discriminate; match type of X with context [?x ?= ?y] => destruct (Z.compare_spec x y); try discriminate | _ => idtac end
            | intros (z & [A B] & C & D); try reflexivity; match goal with |- context [?x ?= ?y] => destruct (Z.compare_spec x y); try reflexivity; lia end]);
    first [exists b; lia | exists a; lia].
Qed.

Lemma overlapped_false ps q :
  overlapped ps q = false <-> (forall p, In p ps -> p_name p <> p_name q -> shared p q -> overlap p q -> False).
Proof.
  unfold overlapped. split.
  - intros E p I N S O. apply not_true_iff_false in E. apply E.
    apply existsb_exists. exists p. split; auto. apply Z.eqb_neq in N. rewrite N.
    apply specified_shared in S. rewrite S. cbn. apply meet. auto.
  - intros F. apply not_true_is_false. intros E. apply existsb_exists in E. destruct E as (p & I & E).
    destruct (Z.eqb_spec (p_name p) (p_name q)) as [|N]; [discriminate|].
    destruct (specified_with p q) eqn:S; [|discriminate]. cbn in E. apply meet in E. apply specified_shared in S. eauto.
Qed.

Definition apart (ps : list part) : Prop := forall p q, In p ps -> In q ps -> shared p q -> overlap p q -> p = q.
Lemma shared_sym p q : shared p q -> shared q p.
Proof. intros [[A B]|(T & A & B)]; [left; auto|right; exists T; auto]. Qed.
Lemma overlap_sym p q : overlap p q -> overlap q p.
Proof. intros (z & A & B). exists z. auto. Qed.

Lemma apart_add ps q : apart ps -> ~ In (p_name q) (map p_name ps) -> overlapped ps q = false -> apart (ps ++ [q]).
Proof.
  intros A N O x y Ix Iy S V. rewrite overlapped_false in O.
  assert (D : forall p, In p ps -> p_name p <> p_name q) by (intros p I E; apply N; rewrite <- E; apply in_map; auto).
  apply in_app_or in Ix, Iy. destruct Ix as [Ix|[<-|[]]], Iy as [Iy|[<-|[]]]; auto.
  - exfalso. eapply (O x); eauto.
  - exfalso. eapply (O y); eauto using shared_sym, overlap_sym.
Qed.
Lemma apart_perm ps qs : Permutation ps qs -> apart ps -> apart qs.
Proof.
  intros P A p q I J. apply A; eapply Permutation_in; try apply Permutation_sym; eauto.
Qed.

Lemma insert_perm p ps : Permutation (insert_part p ps) (p :: ps).
Proof.
  induction ps as [|q ps IH]; cbn; auto. destruct (part_le p q); auto.
  rewrite IH. apply perm_swap.
Qed.
Lemma sort_perm ps : Permutation (sort_parts ps) ps.
Proof. induction ps as [|p ps IH]; cbn; auto. rewrite insert_perm. auto. Qed.

Lemma mem_in n ns : mem n ns = true <-> In n ns.
Proof.
  unfold mem. rewrite existsb_exists. split.
  - intros (x & I & E). apply Z.eqb_eq in E. subst. auto.
  - intros I. exists n. rewrite Z.eqb_refl. auto.
Qed.
Lemma mem_out n ns : mem n ns = false -> ~ In n ns.
Proof. intros E I. apply mem_in in I. congruence. Qed.

Lemma well_c c ps' : Permutation ps' (c_parts c) -> well c -> well (set_parts c ps').
Proof.
  intros P (A & B & C & D). repeat split; cbn [set_parts c_parts c_max].
  - eapply Permutation_NoDup; [apply Permutation_map, Permutation_sym; exact P|auto].
  - eapply Permutation_NoDup; [apply Permutation_map, Permutation_sym; exact P|auto].
  - apply C. eapply Permutation_in; eauto.
  - apply C. eapply Permutation_in; eauto.
  - eapply apart_perm; [apply Permutation_sym; exact P|exact D].
Qed.

(* ---- ADD PARTITION ---- *)
Lemma NoDup_snoc {A} (l : list A) x : NoDup l -> ~ In x l -> NoDup (l ++ [x]).
Proof.
  intros N I. eapply Permutation_NoDup; [apply Permutation_app_comm|]. cbn. constructor; auto.
Qed.
Lemma add_loop_ok lo hi dyn qs : forall names ps id ps' id',
  add_loop lo hi dyn names ps id qs = Some (ps', id') ->
  (forall p, In p ps -> In (p_name p) names) -> NoDup (map p_name ps) -> NoDup (map p_id ps) ->
  -1 <= id -> (forall p, In p ps -> 0 <= p_id p <= id) -> apart ps ->
  NoDup (map p_name ps') /\ NoDup (map p_id ps') /\ (forall p, In p ps' -> 0 <= p_id p <= id') /\ apart ps' /\ id <= id' /\
  (forall p, In p ps -> In p ps') /\ (forall p, In p ps' -> In p ps \/ id < p_id p).
Proof.
  induction qs as [|q qs IH]; intros names ps id ps' id' E HN N1 N2 LO HI AP; cbn [add_loop] in E.
  - injection E as <- <-. repeat split; auto; try apply HI; auto; lia.
  - destruct (mem (q_name q) names) eqn:M.
    { destruct dyn; [|discriminate]. eapply IH; eauto. }
    destruct (match q_bounds q with Less b => (BVal lo, b) | Between l r => (l, r) end) as [l r].
    destruct (check_range lo hi l r); cbn [negb] in E; [|discriminate].
    set (p := {| p_name := q_name q; p_id := id + 1; p_type := q_type q; p_cold := q_cold q; p_left := l; p_right := r |}) in *.
    assert (NP : ~ In (p_name p) (map p_name ps)).
    { intros I. apply in_map_iff in I. destruct I as (x & E1 & I). apply mem_out in M. apply M. cbn in E1. rewrite <- E1. auto. }
    destruct (overlapped ps p) eqn:O.
    { destruct dyn; [|discriminate]. eapply IH in E; eauto. intros x I. right. auto. }
    eapply IH in E.
    + destruct E as (E1 & E2 & E3 & E4 & E5 & E6 & E7). repeat split; auto; try apply E3; auto; try lia.
      * intros x I. apply E6. apply in_or_app. auto.
      * intros x I. destruct (E7 x I) as [J|J]; [|right; lia]. apply in_app_or in J. destruct J as [J|[<-|[]]]; auto. right. cbn. lia.
    + intros x I. apply in_app_or in I. destruct I as [I|[<-|[]]]; [right; auto|left; auto].
    + rewrite map_app. cbn. apply NoDup_snoc; auto.
    + rewrite map_app. cbn. apply NoDup_snoc; auto. intros I. apply in_map_iff in I. destruct I as (x & E1 & I). apply HI in I. lia.
    + lia.
    + intros x I. apply in_app_or in I. destruct I as [I|[<-|[]]]; [apply HI in I; lia|cbn; lia].
    + apply apart_add; auto.
Qed.
Lemma well_max c : well c -> c_parts c <> [] -> 0 <= c_max c.
Proof. intros (_ & _ & X & _) N. destruct (c_parts c) as [|p ps] eqn:E; [congruence|]. specialize (X p (or_introl eq_refl)). lia. Qed.
Lemma add_ok c dyn qs c' :
  well c -> -1 <= c_max c -> add_partition c dyn qs = Some c' ->
  well c' /\ c_max c <= c_max c' /\ (forall p, In p (c_parts c) -> In p (c_parts c')) /\
  (forall p, In p (c_parts c') -> In p (c_parts c) \/ c_max c < p_id p).
Proof.
  intros (A & B & C & D) LO. unfold add_partition.
  destruct (add_loop _ _ _ _ _ _ _) as [[ps id]|] eqn:E; [|discriminate]. intros X. injection X as <-.
  eapply add_loop_ok in E; auto; [|intros p I; apply in_map; auto].
  destruct E as (E1 & E2 & E3 & E4 & E5 & E6 & E7). cbn [c_parts c_max].
  assert (P := sort_perm ps). split; [|split; [auto|split]].
  - apply (well_c {| c_parts := ps; c_max := id; c_primary := c_primary c; c_iso := c_iso c; c_lo := c_lo c; c_hi := c_hi c |} (sort_parts ps)); auto.
    split; auto.
  - intros p I. eapply Permutation_in; [apply Permutation_sym; exact P|auto].
  - intros p I. apply E7. eapply Permutation_in; [exact P|auto].
Qed.

(* a request for one partition: exactly the overlapping ones are refused *)
Lemma check_range_spec lo hi l r : check_range lo hi l r = true <->
  check_bound lo hi false l = true /\ check_bound lo hi true r = true /\ bcmp l r = Lt.
Proof.
  unfold check_range. rewrite !andb_true_iff. destruct (bcmp l r); intuition discriminate.
Qed.
Lemma add_one c n t cold l r :
  check_range (c_lo c) (c_hi c) l r = true -> ~ In n (map p_name (c_parts c)) ->
  (add_partition c false [{| q_name := n; q_type := t; q_cold := cold; q_bounds := Between l r |}] = None <->
   exists p q, In p (c_parts c) /\ q = {| p_name := n; p_id := c_max c + 1; p_type := t; p_cold := cold; p_left := l; p_right := r |} /\
     shared p q /\ overlap p q).
Proof.
  intros CR NI. unfold add_partition. cbn [add_loop q_name q_bounds q_type q_cold].
  destruct (mem n (map p_name (c_parts c))) eqn:M; [apply mem_in in M; tauto|]. rewrite CR. cbn [negb].
  set (q := {| p_name := n; p_id := c_max c + 1; p_type := t; p_cold := cold; p_left := l; p_right := r |}).
  destruct (overlapped (c_parts c) q) eqn:O.
  - split; auto. intros _. unfold overlapped in O. apply existsb_exists in O. destruct O as (p & I & O).
    destruct (p_name p =? p_name q); [discriminate|]. destruct (specified_with p q) eqn:S; [|discriminate]. cbn in O.
    exists p, q. apply specified_shared in S. apply (proj1 (meet p q)) in O. auto.
  - split; [discriminate|]. intros (p & q' & I & -> & S & V). exfalso. rewrite overlapped_false in O. eapply (O p); eauto.
    intros X. change (p_name q) with n in X. apply NI. rewrite <- X. apply in_map. auto.
Qed.

(* ---- DROP, MODIFY ---- *)
Lemma apart_from_check ps : NoDup (map p_name ps) -> existsb (overlapped ps) ps = false -> apart ps.
Proof.
  intros N E p q I J S V.
  assert (O : overlapped ps q = false).
  { apply not_true_is_false. intros X. assert (Y : existsb (overlapped ps) ps = true) by (apply existsb_exists; eauto). congruence. }
  rewrite overlapped_false in O. destruct (Z.eq_dec (p_name p) (p_name q)) as [X|X].
  - clear - N I J X. induction ps as [|a ps IH]; [destruct I|]. cbn in N. inversion N; subst.
    destruct I as [->|I], J as [->|J]; auto.
    + exfalso. apply H1. rewrite X. apply in_map. auto.
    + exfalso. apply H1. rewrite <- X. apply in_map. auto.
  - exfalso. eapply (O p); eauto.
Qed.
Lemma NoDup_map_filter {A B} (f : A -> B) g l : NoDup (map f l) -> NoDup (map f (filter g l)).
Proof.
  induction l as [|a l IH]; cbn; auto. intros N. inversion N; subst. destruct (g a); cbn; auto. constructor; auto.
  intros I. apply H1. apply in_map_iff in I. destruct I as (x & E & I). apply filter_In in I. rewrite <- E. apply in_map. tauto.
Qed.
(* partitions with the same names and ids *)
Lemma drop_ok c dyn ns c' :
  NoDup (map p_name (c_parts c)) -> NoDup (map p_id (c_parts c)) -> (forall p, In p (c_parts c) -> 0 <= p_id p <= c_max c) ->
  drop_internal c dyn ns = Some c' ->
  well c' /\ c_max c' = c_max c /\ (forall p, In p (c_parts c') -> In p (c_parts c)) /\ (c_parts c <> [] -> c_parts c' <> []).
Proof.
  intros A B C. unfold drop_internal.
  assert (K : forall g ps, ps = filter g (c_parts c) ->
    (if existsb (overlapped ps) ps then None else Some (set_parts c ps)) = Some c' ->
    well c' /\ c_max c' = c_max c /\ (forall p, In p (c_parts c') -> In p (c_parts c)) /\ c_parts c' = ps).
  { intros g ps -> E. destruct (existsb _ _) eqn:X; [discriminate|]. injection E as <-. cbn [set_parts c_parts c_max].
    assert (N := NoDup_map_filter p_name g _ A). split; [|split; auto; split; auto; intros p I; apply filter_In in I; tauto].
    split; [exact N|]. split; [apply NoDup_map_filter; auto|]. split; [|apply apart_from_check; auto].
    cbn. intros p I. apply filter_In in I. apply C. tauto. }
  destruct ns as [|n ns].
  - intros E. destruct (K (fun _ => true) (c_parts c)) as (K1 & K2 & K3 & K4); auto.
    { clear. induction (c_parts c) as [|a l IH]; cbn; congruence. }
    rewrite K4. auto.
  - destruct (drop_ids _ _ _) as [ids|]; [|discriminate].
    destruct (filter (fun p => negb (mem (p_id p) ids)) (c_parts c)) as [|x ps] eqn:F; [discriminate|].
    intros E. destruct (K _ _ (eq_sym F) E) as (K1 & K2 & K3 & K4). split; auto. split; auto. split; auto. intros _. rewrite K4. discriminate.
Qed.
Lemma cool_same primary all ps n cold :
  map p_name (fst (cool primary all ps n cold)) = map p_name ps /\ map p_id (fst (cool primary all ps n cold)) = map p_id ps.
Proof.
  induction ps as [|p ps IH]; cbn; auto. destruct (p_name p =? n).
  - destruct cold as [[|]|]; cbn; auto. destruct (ptype_eqb _ _); cbn; auto.
  - destruct (cool primary all ps n cold) as [ps2 ns]. cbn in *. destruct IH as [-> ->]. auto.
Qed.
Lemma modify_ok c dyn rs c' :
  well c -> modify_partition c dyn rs = Some c' ->
  well c' /\ c_max c' = c_max c /\ (forall p', In p' (c_parts c') -> In (p_id p') (map p_id (c_parts c))) /\ (c_parts c <> [] -> c_parts c' <> []).
Proof.
  intros (A & B & C & D). unfold modify_partition.
  assert (K : forall rs ps ns, map p_name ps = map p_name (c_parts c) -> map p_id ps = map p_id (c_parts c) ->
    let r := fold_left (fun a r => let '(ps, ns) := a in
      let '(ps2, ns2) := cool (c_primary c) (c_parts c) ps (fst r) (snd r) in (ps2, ns ++ ns2)) rs (ps, ns) in
    map p_name (fst r) = map p_name (c_parts c) /\ map p_id (fst r) = map p_id (c_parts c)).
  { induction rs0 as [|[n cold] rs0 IH]; intros ps ns E1 E2; cbn [fold_left fst snd]; auto.
    pose proof (cool_same (c_primary c) (c_parts c) ps n cold) as [F1 F2].
    destruct (cool (c_primary c) (c_parts c) ps n cold) as [ps2 ns2]. cbn in F1, F2. apply IH; congruence. }
  specialize (K rs (c_parts c) [] eq_refl eq_refl). cbv zeta in K.
  destruct (fold_left _ rs (c_parts c, [])) as [ps ns]. cbn [fst] in K. destruct K as [K1 K2]. intros E.
  assert (I1 : forall p, In p ps -> In (p_id p) (map p_id (c_parts c))) by (intros p I; rewrite <- K2; apply in_map; auto).
  apply drop_ok in E; cbn [set_parts c_parts c_max] in *; try congruence.
  - destruct E as (E1 & E2 & E3 & E4). split; auto. split; auto. split; auto.
    intros N. apply E4. intros ->. destruct (c_parts c); [congruence|discriminate].
  - intros p I. apply I1 in I. apply in_map_iff in I. destruct I as (x & <- & I). auto.
Qed.

(* ---- CREATE TABLE ---- *)
Lemma add_checked_ok qs : forall ps r, add_checked ps qs = Some r -> apart ps -> NoDup (map p_name (ps ++ qs)) -> r = ps ++ qs /\ apart r.
Proof.
  induction qs as [|q qs IH]; intros ps r E A N; cbn in E.
  - injection E as <-. rewrite app_nil_r. auto.
  - destruct (overlapped ps q) eqn:O; [discriminate|]. apply IH in E.
    + rewrite <- app_assoc in E. auto.
    + apply apart_add; auto. rewrite map_app in N. cbn in N. apply NoDup_remove_2 in N. intros I. apply N. apply in_or_app. auto.
    + rewrite <- app_assoc. auto.
Qed.
Lemma chain_names l ps : map p_name (chain l ps) = map p_name ps.
Proof. revert l. induction ps as [|p ps IH]; intros l; cbn; auto. rewrite IH. auto. Qed.
Lemma of_type_names lo qs t : Permutation (map p_name (of_type lo qs t)) (map q_name (filter (fun q => ptype_eqb (q_type q) t) qs)).
Proof.
  unfold of_type. set (m := filter _ qs). clearbody m. rewrite map_app, chain_names.
  rewrite (Permutation_map p_name (sort_perm _)). induction m as [|q m IH]; cbn; auto.
  rewrite !map_app. unfold less_of at 1, range_of at 1. destruct (q_bounds q); cbn [map app].
  - constructor. auto.
  - rewrite <- Permutation_middle. constructor. auto.
Qed.
Lemma types_cover (qs : list preq) :
  Permutation (filter (fun q => ptype_eqb (q_type q) TDefault) qs ++ filter (fun q => ptype_eqb (q_type q) TNew) qs ++
               filter (fun q => ptype_eqb (q_type q) TAdditional) qs) qs.
Proof.
  induction qs as [|q qs IH]; cbn; auto. destruct (q_type q); cbn [ptype_eqb app].
  - constructor. auto.
  - rewrite <- Permutation_middle. constructor. auto.
  - rewrite app_assoc, <- Permutation_middle, <- app_assoc. constructor. auto.
Qed.
Lemma distinct_ok ns : distinct ns = true -> NoDup ns.
Proof.
  induction ns as [|n ns IH]; cbn; [constructor|]. rewrite andb_true_iff, negb_true_iff. intros [A B]. constructor; auto using mem_out.
Qed.
Lemma number_names i ps : map p_name (number i ps) = map p_name ps.
Proof. revert i. induction ps as [|p ps IH]; intros i; cbn; auto. rewrite IH. auto. Qed.
Lemma number_ids ps : forall i p, In p (number i ps) -> i <= p_id p < i + Z.of_nat (length ps).
Proof.
  induction ps as [|q ps IH]; cbn [number length]; intros i p; [intros []|]. intros [<-|I]; [cbn; lia|]. apply IH in I. lia.
Qed.
Lemma number_nodup ps : forall i, NoDup (map p_id (number i ps)).
Proof.
  induction ps as [|q ps IH]; cbn; intros i; constructor; auto. intros I. apply in_map_iff in I. destruct I as (x & E & I).
  apply number_ids in I. lia.
Qed.
Lemma number_in ps : forall i p, In p (number i ps) -> exists q, In q ps /\ p_name q = p_name p /\ p_type q = p_type p /\ p_cold q = p_cold p /\ p_left q = p_left p /\ p_right q = p_right p.
Proof.
  induction ps as [|q ps IH]; cbn; intros i p; [intros []|]. intros [<-|I]; [exists q; cbn; auto 10|]. destruct (IH _ _ I) as (x & J & E). exists x. auto.
Qed.
Lemma name_inj ps p q : NoDup (map p_name ps) -> In p ps -> In q ps -> p_name p = p_name q -> p = q.
Proof.
  intros N I J X. induction ps as [|a ps IH]; [destruct I|]. cbn in N. inversion N; subst.
  destruct I as [->|I], J as [->|J]; auto.
  - exfalso. apply H1. rewrite X. apply in_map. auto.
  - exfalso. apply H1. rewrite <- X. apply in_map. auto.
Qed.
Lemma number_apart ps i : apart ps -> NoDup (map p_name ps) -> apart (number i ps).
Proof.
  intros A N p q I J S V.
  destruct (number_in _ _ _ I) as (p' & I' & E1 & E2 & E3 & E4 & E5). destruct (number_in _ _ _ J) as (q' & J' & F1 & F2 & F3 & F4 & F5).
  apply (name_inj (number i ps)); auto; [rewrite number_names; auto|]. rewrite <- E1, <- F1. f_equal. apply A; auto.
  - unfold shared, usable in *. rewrite E2, E3, F2, F3. auto.
  - unfold overlap, holds in *. rewrite E4, E5, F4, F5. auto.
Qed.
Lemma create_ok lo hi primary iso qs c :
  create_partitions lo hi primary iso qs = Some c ->
  well c /\ 0 <= c_max c /\ c_parts c <> [] /\ Permutation (map p_name (c_parts c)) (map q_name qs).
Proof.
  unfold create_partitions. destruct (distinct _) eqn:D; cbn [negb]; [|discriminate]. apply distinct_ok in D.
  destruct (forallb _ _); cbn [negb]; [|discriminate].
  destruct (add_checked _ _) as [[|x r]|] eqn:E; try discriminate. intros X.
  remember (x :: r) as r0 eqn:R0. injection X as <-.
  assert (P : Permutation (map p_name (of_type lo qs TDefault ++ of_type lo qs TNew ++ of_type lo qs TAdditional)) (map q_name qs)).
  { rewrite !map_app, !of_type_names, <- !map_app. apply Permutation_map, types_cover. }
  assert (N : NoDup (map p_name (of_type lo qs TDefault ++ of_type lo qs TNew ++ of_type lo qs TAdditional))).
  { eapply Permutation_NoDup; [apply Permutation_sym; exact P|auto]. }
  apply add_checked_ok in E; [|intros p q []|exact N]. cbn [app] in E. destruct E as [ER A]. rewrite <- ER in P, N.
  assert (SP := sort_perm r0). assert (SN : NoDup (map p_name (sort_parts r0))).
  { eapply Permutation_NoDup; [apply Permutation_map, Permutation_sym; exact SP|auto]. }
  assert (L : length (sort_parts r0) = length r0) by (apply Permutation_length; auto).
  cbn [c_parts c_max]. split; [|split; [rewrite R0; cbn [length]; lia|split]].
  - split; cbn [c_parts c_max]; [rewrite number_names; auto|]. split; [apply number_nodup|]. split.
    + intros p I. apply number_ids in I. rewrite L in I. lia.
    + apply number_apart; auto. eapply apart_perm; [apply Permutation_sym; exact SP|auto].
  - intros Y. assert (Z : map p_name (sort_parts r0) = []) by (rewrite <- (number_names 0), Y; auto).
    apply map_eq_nil in Z. rewrite Z, R0 in L. discriminate.
  - rewrite number_names. rewrite (Permutation_map p_name SP). auto.
Qed.

(* ---- the frontend ---- *)
Lemma within_holds p z : within (Some z) p = true <-> holds p z.
Proof.
  unfold within, holds, from, before, vcmp. destruct (p_left p) as [a|], (p_right p) as [b|].
  - destruct (Z.compare_spec z a), (Z.compare_spec z b); split; intros X; try discriminate; auto; lia.
  - destruct (Z.compare_spec z a); split; intros X; try discriminate; auto; lia.
  - split; [discriminate|tauto].
  - split; [discriminate|tauto].
Qed.
Lemma within_null p : within None p = false.
Proof. unfold within, vcmp. destruct (p_left p); auto. Qed.

Lemma find_id_spec f ps : (exists p, In p ps /\ f p = true /\ find_id f ps = p_id p) \/ ((forall p, In p ps -> f p = false) /\ find_id f ps = -1).
Proof.
  induction ps as [|p ps IH]; cbn; [right; split; auto; intros p []|]. destruct (f p) eqn:E.
  - left. exists p. auto.
  - destruct IH as [(q & I & F & G)|[F G]]; [left; exists q; auto|right; split; auto]. intros q [<-|I]; auto.
Qed.
Lemma find_id_unique f ps p : (forall q, In q ps -> f q = true -> q = p) -> In p ps -> f p = true -> find_id f ps = p_id p.
Proof.
  intros U I F. destruct (find_id_spec f ps) as [(q & J & G & ->)|[G _]]; [rewrite (U q); auto|]. rewrite G in F; auto. discriminate.
Qed.
Lemma find_id_none f ps : (forall p, In p ps -> f p = false) -> find_id f ps = -1.
Proof. intros N. destruct (find_id_spec f ps) as [(q & J & G & _)|[_ G]]; auto. rewrite N in G; auto. discriminate. Qed.

Lemma in_normal c p : In p (normal c) <-> In p (c_parts c) /\ p_type p <> TAdditional.
Proof. unfold normal. rewrite filter_In. destruct (ptype_eqb_spec (p_type p) TAdditional); cbn; intuition congruence. Qed.
Lemma in_additional c p : In p (additional c) <-> In p (c_parts c) /\ p_type p = TAdditional.
Proof. unfold additional. rewrite filter_In. destruct (ptype_eqb_spec (p_type p) TAdditional); cbn; intuition congruence. Qed.

Lemma specified_usable c u p : u_switch u = false -> p_type p <> TAdditional -> (specified_range c u p = true <-> usable (u_type u) p).
Proof.
  intros SW N. unfold specified_range, usable, wanted_type. rewrite SW. cbn [andb].
  destruct (p_cold p); cbn [negb]; [intuition|].
  destruct (ptype_eqb_spec (u_type u) (p_type p)); intuition congruence.
Qed.

Lemma normal_unique c u z p q : well c -> u_switch u = false -> In p (normal c) -> In q (normal c) ->
  specified_range c u p && within (Some z) p = true -> specified_range c u q && within (Some z) q = true -> p = q.
Proof.
  intros W SW I J A B. apply in_normal in I, J. destruct I as [I NI], J as [J NJ].
  apply andb_true_iff in A, B. destruct A as [A1 A2], B as [B1 B2]. apply specified_usable in A1; auto. apply specified_usable in B1; auto.
  apply within_holds in A2, B2. destruct W as (_ & _ & _ & D). apply D; auto.
  - right. exists (u_type u). auto.
  - exists z. auto.
Qed.
Lemma additional_unique c z p q : well c -> In p (additional c) -> In q (additional c) ->
  within (Some z) p = true -> within (Some z) q = true -> p = q.
Proof.
  intros W I J A B. apply in_additional in I, J. apply within_holds in A, B. destruct W as (_ & _ & _ & D). apply D; try tauto.
  - left. tauto.
  - exists z. auto.
Qed.

(* the ordinary and the additional partition of a value *)
Definition ordinary_id c u z := find_id (fun p => specified_range c u p && within (Some z) p) (rev (normal c)).
Definition additional_id c z := find_id (within (Some z)) (rev (additional c)).
Lemma ordinary_id_ok c u z p : well c -> u_switch u = false -> In p (c_parts c) -> usable (u_type u) p -> holds p z -> ordinary_id c u z = p_id p.
Proof.
  intros W SW I U V. unfold ordinary_id. assert (J : In p (normal c)) by (apply in_normal; split; auto; apply U).
  assert (F : specified_range c u p && within (Some z) p = true).
  { apply andb_true_iff. split; [apply specified_usable; auto; apply U|apply within_holds; auto]. }
  apply find_id_unique; auto; [|rewrite <- in_rev; auto]. intros q Iq Fq. apply in_rev in Iq. eapply normal_unique; eauto.
Qed.
Lemma ordinary_id_some c u z : well c -> u_switch u = false ->
  (exists p, In p (c_parts c) /\ usable (u_type u) p /\ holds p z /\ ordinary_id c u z = p_id p) \/
  ((forall p, In p (c_parts c) -> usable (u_type u) p -> ~ holds p z) /\ ordinary_id c u z = -1).
Proof.
  intros W SW. unfold ordinary_id. destruct (find_id_spec (fun p => specified_range c u p && within (Some z) p) (rev (normal c))) as [(p & I & F & E)|[N E]].
  - left. apply in_rev in I. apply in_normal in I. destruct I as [I NI]. apply andb_true_iff in F. destruct F as [F1 F2].
    exists p. apply specified_usable in F1; auto. apply within_holds in F2. auto.
  - right. split; auto. intros p I U V. assert (X := N p). rewrite <- in_rev, in_normal in X. specialize (X (conj I (proj1 U))).
    apply not_true_iff_false in X. apply X. apply andb_true_iff. split; [apply specified_usable; auto; apply U|apply within_holds; auto].
Qed.
Lemma additional_id_ok c z p : well c -> In p (c_parts c) -> p_type p = TAdditional -> holds p z -> additional_id c z = p_id p.
Proof.
  intros W I U V. unfold additional_id. assert (J : In p (additional c)) by (apply in_additional; auto).
  apply find_id_unique; [|rewrite <- in_rev; auto|apply within_holds; auto]. intros q Iq Fq. apply in_rev in Iq.
  eapply additional_unique; eauto. apply within_holds; auto.
Qed.
Lemma additional_id_some c z :
  (exists p, In p (c_parts c) /\ p_type p = TAdditional /\ holds p z /\ additional_id c z = p_id p) \/
  ((forall p, In p (c_parts c) -> p_type p = TAdditional -> ~ holds p z) /\ additional_id c z = -1).
Proof.
  unfold additional_id. destruct (find_id_spec (within (Some z)) (rev (additional c))) as [(p & I & F & E)|[N E]].
  - left. apply in_rev in I. apply in_additional in I. apply within_holds in F. exists p. tauto.
  - right. split; auto. intros p I U V. assert (X := N p). rewrite <- in_rev, in_additional in X. specialize (X (conj I U)).
    apply not_true_iff_false in X. apply X. apply within_holds; auto.
Qed.
Lemma calc_eq c u z rd : u_switch u = false ->
  calc_partition c u (Some z) rd =
  if u_additional u then (additional_id c z, -1)
  else if rd then if ordinary_id c u z =? -1 then (additional_id c z, -1) else (ordinary_id c u z, additional_id c z)
  else (ordinary_id c u z, -1).
Proof. intros SW. unfold calc_partition. rewrite SW. reflexivity. Qed.

Lemma write_ok c u z : well c -> u_switch u = false ->
  (exists p, calc_partition c u (Some z) false = (p_id p, -1) /\ In p (c_parts c) /\ sees u false p /\ holds p z /\
     (forall q, In q (c_parts c) -> sees u false q -> holds q z -> q = p)) \/
  (calc_partition c u (Some z) false = (-1, -1) /\ forall q, In q (c_parts c) -> sees u false q -> ~ holds q z).
Proof.
  intros W SW. rewrite calc_eq by auto. unfold sees. destruct (u_additional u) eqn:AD.
  - destruct (additional_id_some c z) as [(p & I & U & V & ->)|[N ->]]; [left|right; auto].
    exists p. repeat split; auto; try apply V. intros q J Uq Vq. destruct W as (_ & _ & _ & D). apply D; auto; [left; auto|exists z; auto].
  - destruct (ordinary_id_some c u z W SW) as [(p & I & U & V & ->)|[N ->]]; [left|right].
    + exists p. split; auto. split; auto. split; auto. split; auto. intros q J [Uq|[X _]] Vq; [|discriminate].
      destruct W as (_ & _ & _ & D). apply D; auto; [right; exists (u_type u); auto|exists z; auto].
    + split; auto. intros q J [Uq|[X _]]; [|discriminate]. auto.
Qed.

Lemma range_match_ok l lopen r ropen p z : holds p z -> passes (CRange l lopen r ropen) z -> range_match l r ropen p = true.
Proof.
  unfold holds, from, before, passes, range_match, vcmp. intros [A B] [C D]. apply andb_true_iff. split.
  - destruct l as [x|]; auto. destruct (p_right p) as [y|]; auto. destruct (Z.compare_spec x y); auto; destruct lopen; lia.
  - destruct r as [x|]; auto. destruct (p_left p) as [y|]; [|tauto]. destruct (Z.compare_spec x y); auto; destruct ropen; auto; lia.
Qed.

Lemma select_ok c u slot f rd w z p ids :
  well c -> u_switch u = false -> In p (c_parts c) -> sees u rd p ->
  (slot = true -> f (Some z) = Some z) -> (slot = false -> forall l lo r ro, w = CRange l lo r ro -> u_additional u = false /\ p_type p <> TAdditional) ->
  (exists x, f (Some z) = Some x /\ holds p x) -> passes w z ->
  select_range c u slot f rd w = Some ids -> In (p_id p) ids.
Proof.
  intros W SW I S HS HF (x & EX & V) PW. unfold select_range. destruct w as [|vs|l lo r ro].
  - unfold all_partitions. rewrite SW. cbn [andb]. unfold sees in S. destruct (u_additional u).
    + intros E. injection E as <-. apply in_map, in_additional. auto.
    + intros E. injection E as <-. apply in_or_app. destruct S as [S|[-> S]].
      * left. apply in_map, filter_In. split; [apply in_normal; split; auto; apply S|apply specified_usable; auto; apply S].
      * right. apply in_map, in_additional. auto.
  - intros E. injection E as <-. apply in_flat_map. exists (Some z). split; auto. rewrite EX. rewrite calc_eq by auto. unfold sees in S.
    destruct W as (W1 & W2 & W3 & W4). assert (W : well c) by (repeat split; auto; apply W3; auto). specialize (W3 p I).
    destruct (u_additional u).
    + rewrite (additional_id_ok c x p); auto. replace (p_id p <? 0) with false by (symmetry; apply Z.ltb_ge; lia). left. auto.
    + destruct S as [S|[-> S]].
      * rewrite (ordinary_id_ok c u x p); auto. destruct rd.
        -- destruct (Z.eqb_spec (p_id p) (-1)); [lia|]. replace (p_id p <? 0) with false by (symmetry; apply Z.ltb_ge; lia).
           destruct (_ =? -1); left; auto.
        -- replace (p_id p <? 0) with false by (symmetry; apply Z.ltb_ge; lia). left; auto.
      * rewrite (additional_id_ok c x p); auto.
        destruct (ordinary_id_some c u x W SW) as [(q & J & U & Vq & ->)|[_ ->]].
        -- assert (Q : 0 <= p_id q) by (apply W; auto). destruct (Z.eqb_spec (p_id q) (-1)); [lia|].
           replace (p_id q <? 0) with false by (symmetry; apply Z.ltb_ge; lia).
           destruct (Z.eqb_spec (p_id p) (-1)); [lia|]. right; left; auto.
        -- rewrite Z.eqb_refl. replace (p_id p <? 0) with false by (symmetry; apply Z.ltb_ge; lia). left; auto.
  - unfold calc_partitions. destruct slot; cbn [negb].
    + rewrite (HS eq_refl) in EX. injection EX as <-. rewrite SW. cbn [andb].
      pose proof (range_match_ok l lo r ro p z V PW) as RM. unfold sees in S. destruct (u_additional u).
      * intros E. injection E as <-. apply in_map, filter_In. rewrite in_additional. auto.
      * intros E. injection E as <-. apply in_or_app. destruct S as [S|[-> S]].
        -- left. apply in_map, filter_In. rewrite in_normal. repeat split; auto; try apply S. apply andb_true_iff. split; auto. apply specified_usable; auto; apply S.
        -- right. apply in_map, filter_In. rewrite in_additional. auto.
    + intros E. injection E as <-. destruct (HF eq_refl _ _ _ _ eq_refl) as [_ NT]. apply in_map, in_normal. auto.
Qed.

(* ---- HASH ---- *)
Lemma calc_hash_range n v : 0 < n -> (forall z, v = HNum z -> 0 <= z) -> 0 <= calc_hash n v < n.
Proof.
  intros N P. destruct v as [z|h]; cbn.
  - apply Z.rem_bound_pos; auto.
  - apply Z.mod_pos_bound; auto.
Qed.
Lemma select_hash_ok n w v ids : 0 < n -> 0 <= calc_hash n v -> (match w with HIn vs => vs = [] \/ In v vs | HAll => True end) ->
  select_hash n w = Some ids -> In (calc_hash n v) ids.
Proof.
  intros N NN P. assert (B : calc_hash n v < n).
  { destruct v as [z|h]; cbn in *; [|apply Z.mod_pos_bound; auto].
    pose proof (Z.rem_bound_abs z n). lia. }
  assert (ALL : In (calc_hash n v) (map Z.of_nat (seq 0 (Z.to_nat n)))).
  { apply in_map_iff. exists (Z.to_nat (calc_hash n v)). split; [lia|]. apply in_seq. lia. }
  destruct w as [|[|x vs]]; cbn [select_hash].
  - intros E. injection E as <-. auto.
  - intros E. injection E as <-. auto.
  - destruct (Z.eqb_spec n 1) as [->|NE].
    + intros E. injection E as <-. left. lia.
    + destruct (existsb _ _); [discriminate|]. intros E. injection E as <-. destruct P as [P|P]; [discriminate|]. change (In (calc_hash n v) (map (calc_hash n) (x :: vs))). apply in_map. auto.
Qed.

(* ---- exact effect of DROP and MODIFY ---- *)
Lemma id_of_spec ps n : NoDup (map p_name ps) -> match id_of ps n with Some i => exists p, In p ps /\ p_name p = n /\ p_id p = i | None => ~ In n (map p_name ps) end.
Proof.
  induction ps as [|p ps IH]; cbn; intros N; [auto|]. inversion N; subst. destruct (Z.eqb_spec (p_name p) n).
  - exists p. auto.
  - specialize (IH H2). destruct (id_of ps n); [|tauto]. destruct IH as (q & I & E). exists q. tauto.
Qed.
Lemma id_inj ps p q : NoDup (map p_id ps) -> In p ps -> In q ps -> p_id p = p_id q -> p = q.
Proof.
  intros N I J X. induction ps as [|a ps IH]; [destruct I|]. cbn in N. inversion N; subst.
  destruct I as [->|I], J as [->|J]; auto.
  - exfalso. apply H1. rewrite X. apply in_map. auto.
  - exfalso. apply H1. rewrite <- X. apply in_map. auto.
Qed.
Lemma drop_ids_spec ps dyn ns ids : NoDup (map p_name ps) -> NoDup (map p_id ps) -> (forall p, In p ps -> 0 <= p_id p) ->
  drop_ids ps dyn ns = Some ids -> forall p, In p ps -> (In (p_id p) ids <-> In (p_name p) ns).
Proof.
  intros A B C. revert ids. induction ns as [|n ns IH]; cbn [drop_ids]; intros ids E p I.
  - injection E as <-. cbn. tauto.
  - pose proof (id_of_spec ps n A) as S. destruct (id_of ps n) as [i|].
    + destruct S as (q & Iq & En & Ei). pose proof (C q Iq). destruct (Z.eqb_spec i (-1)); [lia|].
      destruct (drop_ids ps dyn ns) as [ids'|]; [|discriminate]. injection E as <-. cbn [In]. rewrite (IH ids' eq_refl p I). split.
      * intros [X|X]; auto. left. assert (q = p) by (eapply id_inj; eauto; congruence). congruence.
      * intros [X|X]; auto. left. assert (q = p) by (eapply name_inj; eauto; congruence). congruence.
    + destruct dyn; [|discriminate]. rewrite (IH ids E p I). cbn [In]. split; [auto|]. intros [X|X]; auto. exfalso. apply S. rewrite X. apply in_map. auto.
Qed.
Lemma drop_exact c dyn ns c' :
  NoDup (map p_name (c_parts c)) -> NoDup (map p_id (c_parts c)) -> (forall p, In p (c_parts c) -> 0 <= p_id p <= c_max c) ->
  drop_internal c dyn ns = Some c' -> forall p, In p (c_parts c') <-> In p (c_parts c) /\ ~ In (p_name p) ns.
Proof.
  intros A B C. unfold drop_internal. destruct ns as [|n ns].
  - destruct (existsb _ _); [discriminate|]. intros E. injection E as <-. cbn. tauto.
  - destruct (drop_ids (c_parts c) dyn (n :: ns)) as [ids|] eqn:D; [|discriminate].
    destruct (filter (fun p => negb (mem (p_id p) ids)) (c_parts c)) as [|x ps] eqn:F; [discriminate|].
    destruct (existsb _ _); [discriminate|]. intros E. injection E as <-. cbn [set_parts c_parts]. rewrite <- F. intros p. rewrite filter_In.
    assert (X : In p (c_parts c) -> (In (p_id p) ids <-> In (p_name p) (n :: ns))).
    { apply (drop_ids_spec (c_parts c) dyn); auto. intros q J. apply C. auto. }
    rewrite negb_true_iff. split.
    + intros [I M]. split; auto. apply mem_out in M. rewrite <- X; auto.
    + intros [I M]. split; auto. apply not_true_iff_false. rewrite mem_in. rewrite X; auto.
Qed.
Lemma cool_cold primary all ps p : NoDup (map p_name ps) -> In p ps -> p_type p = primary ->
  snd (cool primary all ps (p_name p) (Some true)) = siblings all p /\
  (forall q, In q (fst (cool primary all ps (p_name p) (Some true))) <-> q = set_cold p true \/ (In q ps /\ q <> p)).
Proof.
  induction ps as [|a ps IH]; cbn; intros N I T; [destruct I|]. inversion N; subst. destruct (Z.eqb_spec (p_name a) (p_name p)) as [E|E].
  - assert (a = p). { destruct I as [->|I]; auto. exfalso. apply H1. rewrite E. apply in_map. auto. } subst a.
    assert (ptype_eqb (p_type p) (p_type p) = true) as -> by (destruct (p_type p); auto). cbn. split; auto. intros q.
    split.
    + intros [X|X]; auto. right. split; auto. intros ->. apply H1. apply in_map. auto.
    + intros [X|[[X|X] Y]]; auto. congruence.
  - destruct I as [->|I]; [congruence|]. specialize (IH H2 I eq_refl). destruct (cool (p_type p) all ps (p_name p) (Some true)) as [ps2 ns]. cbn in *.
    destruct IH as [-> IH]. split; auto. intros q. rewrite IH. split.
    + intros [<-|[X|[X Y]]]; auto. right. split; auto. congruence.
    + intros [X|[[X|X] Y]]; auto.
Qed.
Lemma same_range_spec p q : same_range p q = true <-> p_left p = p_left q /\ p_right p = p_right q.
Proof.
  assert (K : forall a b, bnd_eqb a b = true <-> a = b).
  { intros [a|] [b|]; cbn; try (split; congruence). unfold bnd_eqb. cbn. destruct (Z.compare_spec a b); split; try congruence; intros X; injection X; lia. }
  unfold same_range. rewrite andb_true_iff, !K. tauto.
Qed.
Lemma siblings_spec ps p q : NoDup (map p_name ps) -> In p ps -> In q ps ->
  (In (p_name q) (siblings ps p) <-> q <> p /\ p_type q <> TAdditional /\ p_left q = p_left p /\ p_right q = p_right p).
Proof.
  intros N I J. unfold siblings. rewrite in_map_iff. split.
  - intros (x & E & F). apply filter_In in F. destruct F as [F G]. assert (x = q) by (eapply name_inj; eauto). subst x.
    rewrite !andb_true_iff, !negb_true_iff, same_range_spec in G. destruct G as [[G1 G2] G3]. apply Z.eqb_neq in G3.
    split; [intros ->; congruence|]. split; auto. intros X. rewrite X in G1. discriminate.
  - intros (A & B & C). exists q. split; auto. apply filter_In. split; auto. rewrite !andb_true_iff, !negb_true_iff, same_range_spec.
    split; [split; auto|]. { destruct (p_type q); auto; congruence. } apply Z.eqb_neq. intros X. apply A. eapply name_inj; eauto.
Qed.
Lemma modify_cold_exact c dyn p c' : well c -> In p (c_parts c) -> p_type p = c_primary c -> c_primary c <> TAdditional ->
  modify_partition c dyn [(p_name p, Some true)] = Some c' ->
  forall q, In q (c_parts c') <->
    q = set_cold p true \/
    (In q (c_parts c) /\ q <> p /\ ~ (p_type q <> TAdditional /\ p_left q = p_left p /\ p_right q = p_right p)).
Proof.
  intros (A & B & C & D) I T NA. unfold modify_partition. cbn [fold_left fst snd].
  pose proof (cool_cold (c_primary c) (c_parts c) (c_parts c) p A I T) as [S1 S2].
  pose proof (cool_same (c_primary c) (c_parts c) (c_parts c) (p_name p) (Some true)) as [N1 N2].
  destruct (cool (c_primary c) (c_parts c) (c_parts c) (p_name p) (Some true)) as [ps ns]. cbn [fst snd app] in *. subst ns. intros E q.
  assert (X1 : NoDup (map p_name (c_parts (set_parts c ps)))) by (cbn [set_parts c_parts]; rewrite N1; auto).
  assert (X2 : NoDup (map p_id (c_parts (set_parts c ps)))) by (cbn [set_parts c_parts]; rewrite N2; auto).
  assert (X3 : forall x, In x (c_parts (set_parts c ps)) -> 0 <= p_id x <= c_max (set_parts c ps)).
  { cbn [set_parts c_parts c_max]. intros x J. assert (X : In (p_id x) (map p_id (c_parts c))) by (rewrite <- N2; apply in_map; auto).
    apply in_map_iff in X. destruct X as (y & <- & Y). auto. }
  rewrite (drop_exact _ _ _ _ X1 X2 X3 E).
  cbn [set_parts c_parts]. rewrite S2. split.
  - intros [[->|[X Y]] Z]; auto. right. split; auto. split; auto. intros G. apply Z. apply siblings_spec; tauto.
  - intros [->|(X & Y & Z)].
    + split; auto. cbn [set_cold p_name]. rewrite siblings_spec; auto. tauto.
    + split; auto. rewrite siblings_spec; auto. tauto.
Qed.

(* ---- VALUES LESS THAN ---- *)
Definition ble (a b : bnd) : Prop := bcmp a b <> Gt.
Lemma ble_trans a b d : ble a b -> ble b d -> ble a d.
Proof.
  unfold ble. destruct a as [a|], b as [b|], d as [d|]; cbn; try congruence.
  destruct (Z.compare_spec a b), (Z.compare_spec b d), (Z.compare_spec a d); intros; try congruence; lia.
Qed.
Lemma part_le_right p q : part_le p q = true -> ble (p_right p) (p_right q).
Proof. unfold part_le, ble. destruct (bcmp _ _); congruence. Qed.
Lemma part_nle_right p q : part_le p q = false -> ble (p_right q) (p_right p).
Proof.
  unfold part_le, ble. destruct (p_right p) as [a|], (p_right q) as [b|]; cbn; try congruence.
  destruct (Z.compare_spec a b), (Z.compare_spec b a); try congruence; lia.
Qed.
Fixpoint ascending (ps : list part) : Prop :=
  match ps with [] => True | p :: ps' => (forall q, In q ps' -> ble (p_right p) (p_right q)) /\ ascending ps' end.
Lemma insert_in p ps q : In q (insert_part p ps) <-> q = p \/ In q ps.
Proof.
  split.
  - intros I. apply (Permutation_in q (insert_perm p ps)) in I. destruct I; auto.
  - intros I. apply (Permutation_in q (Permutation_sym (insert_perm p ps))). destruct I; [left|right]; auto.
Qed.
Lemma insert_ascending p ps : ascending ps -> ascending (insert_part p ps).
Proof.
  induction ps as [|q ps IH]; cbn; intros A; [split; auto; intros q []|]. destruct A as [A1 A2]. destruct (part_le p q) eqn:E.
  - cbn. split; [|auto]. apply part_le_right in E. intros x [<-|I]; auto. eapply ble_trans; eauto.
  - cbn. split; [|auto]. intros x I. apply insert_in in I. destruct I as [->|I]; auto. apply part_nle_right. auto.
Qed.
Lemma sort_ascending ps : ascending (sort_parts ps).
Proof. induction ps as [|p ps IH]; cbn; auto. apply insert_ascending. auto. Qed.
Lemma chain_holds ps : forall l z p, ascending ps -> from l z -> In p ps -> before z (p_right p) ->
  (forall q, In q ps -> q <> p -> before z (p_right q) -> bcmp (p_right p) (p_right q) = Lt) ->
  exists x, In x (chain l ps) /\ p_name x = p_name p /\ p_type x = p_type p /\ p_cold x = p_cold p /\ p_right x = p_right p /\ holds x z.
Proof.
  induction ps as [|a ps IH]; intros l z p A F I B U; [destruct I|]. destruct A as [A1 A2]. cbn [chain].
  assert (K : before z (p_right a) \/ from (p_right a) z) by (destruct (p_right a) as [y|]; cbn; [lia|auto]).
  destruct K as [K|K].
  - assert (a = p).
    { destruct I as [|I]; auto. specialize (A1 p I).
      assert (X : a = p \/ a <> p). { clear - U. assert (D : forall x y : part, {x = y} + {x <> y}); [|destruct (D a p); auto].
        repeat decide equality. }
      destruct X as [X|X]; auto. exfalso. specialize (U a (or_introl eq_refl) X K). unfold ble in A1.
      destruct (p_right a) as [x|], (p_right p) as [y|]; cbn in *; try congruence.
      destruct (Z.compare_spec x y), (Z.compare_spec y x); try congruence; lia. }
    subst a. eexists. split; [left; reflexivity|]. cbn. repeat split; auto.
  - destruct I as [->|I].
    + exfalso. destruct (p_right p); cbn in *; lia.
    + destruct (IH (p_right a) z p) as (x & J & E); auto.
      * intros q Iq. apply U. right. auto.
      * exists x. split; [right; auto|auto].
Qed.
Lemma create_less lo hi primary iso qs c q b z :
  create_partitions lo hi primary iso qs = Some c -> In q qs -> q_bounds q = Less b -> lo <= z -> before z b ->
  (forall q' b', In q' qs -> q' <> q -> q_type q' = q_type q -> q_bounds q' = Less b' -> before z b' -> bcmp b b' = Lt) ->
  exists p, In p (c_parts c) /\ p_name p = q_name q /\ p_type p = q_type q /\ p_cold p = q_cold q /\ p_right p = b /\ holds p z.
Proof.
  intros E I EB L B U. unfold create_partitions in E. destruct (distinct _) eqn:D; cbn [negb] in E; [|discriminate]. apply distinct_ok in D.
  destruct (forallb _ _); cbn [negb] in E; [|discriminate].
  destruct (add_checked _ _) as [[|x0 r]|] eqn:AC; try discriminate.
  remember (x0 :: r) as r0 eqn:R0. injection E as <-. cbn [c_parts].
  set (all := of_type lo qs TDefault ++ of_type lo qs TNew ++ of_type lo qs TAdditional) in *.
  assert (P : Permutation (map p_name all) (map q_name qs)).
  { unfold all. rewrite !map_app, !of_type_names, <- !map_app. apply Permutation_map, types_cover. }
  apply add_checked_ok in AC; [|intros ? ? []|cbn; eapply Permutation_NoDup; [apply Permutation_sym; exact P|auto]].
  cbn [app] in AC. destruct AC as [AC _].
  assert (X : exists p, In p (of_type lo qs (q_type q)) /\ p_name p = q_name q /\ p_type p = q_type q /\ p_cold p = q_cold q /\ p_right p = b /\ holds p z).
  { unfold of_type. set (m := filter _ qs).
    assert (IN : forall y, In y (sort_parts (flat_map less_of m)) <-> exists q' b', In q' qs /\ q_type q' = q_type q /\ q_bounds q' = Less b' /\ y = mk q' BMax b').
    { intros y. split.
      - intros J. apply (Permutation_in y (sort_perm _)) in J. apply in_flat_map in J. destruct J as (q' & J1 & J2).
        apply filter_In in J1. destruct J1 as [J1 J3]. unfold less_of in J2. destruct (q_bounds q') as [b'|] eqn:EB'; [|destruct J2]. destruct J2 as [<-|[]].
        exists q', b'. repeat split; auto. destruct (ptype_eqb_spec (q_type q') (q_type q)); [auto|discriminate].
      - intros (q' & b' & J1 & J2 & J3 & ->). apply (Permutation_in _ (Permutation_sym (sort_perm _))). apply in_flat_map. exists q'. split.
        + apply filter_In. split; auto. rewrite J2. destruct (q_type q); auto.
        + unfold less_of. rewrite J3. left. auto. }
    destruct (chain_holds (sort_parts (flat_map less_of m)) (BVal lo) z (mk q BMax b)) as (x & J & E1 & E2 & E3 & E4 & E5); auto.
    - apply sort_ascending.
    - apply IN. exists q, b. auto.
    - intros y J N By. apply IN in J. destruct J as (q' & b' & J1 & J2 & J3 & ->). cbn in *. apply (U q' b'); auto. intros ->. apply N. congruence.
    - exists x. split; [apply in_or_app; auto|auto]. }
  destruct X as (p & IP & E1 & E2 & E3 & E4 & E5).
  assert (IA : In p r0).
  { rewrite AC. unfold all. rewrite !in_app_iff. destruct (q_type q); auto. }
  assert (IS : In p (sort_parts r0)) by (apply (Permutation_in p (Permutation_sym (sort_perm r0))); auto).
  assert (NUM : forall ps i, In p ps -> exists p', In p' (number i ps) /\ p_name p' = p_name p /\ p_type p' = p_type p /\ p_cold p' = p_cold p /\ p_left p' = p_left p /\ p_right p' = p_right p).
  { clear. induction ps as [|a ps IH]; intros i I; [destruct I|]. destruct I as [->|I]; cbn.
    - eexists. split; [left; reflexivity|]. cbn. auto.
    - destruct (IH (i + 1) I) as (p' & J & E). exists p'. auto. }
  destruct (NUM _ 0 IS) as (p' & J & F1 & F2 & F3 & F4 & F5). exists p'. unfold holds in *. rewrite F1, F2, F3, F4, F5. auto 10.
Qed.
