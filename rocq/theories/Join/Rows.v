(* The rows the iterators work off are the rows of the join. *)
From Coq Require Import List ZArith Bool Arith Lia Sorting.Permutation.
From Verif Require Import Common.Bytes Common.KV Key.Model Key.Spec Join.Model Join.Spec Join.Keys Join.Exec.
Import ListNotations.

(* ---- rows ---- *)

Lemma nth_seq_map {A} (f : nat -> option A) n t : (t < n)%nat -> nth t (map f (seq 0 n)) None = f t.
Proof.
  intros Ht. rewrite nth_indep with (d' := f n) by (rewrite map_length, seq_length; exact Ht). rewrite map_nth, seq_nth by exact Ht. reflexivity.
Qed.
Lemma copy_length ids s d : length (copy_from ids s d) = length d.
Proof. unfold copy_from. rewrite map_length, seq_length. reflexivity. Qed.
Lemma nth_repeat_none (n t : nat) : nth t (repeat (@None tuple) n) None = None.
Proof. revert t. induction n; intros [|t]; cbn; auto. Qed.
Lemma null_row_alone n L o : null_row n L o = alone n L o.
Proof.
  unfold null_row, alone, glue, copy_from, fetch_mem_row. rewrite repeat_length. apply map_ext. intros t. cbn [existsb]. unfold mem.
  destruct (existsb (Nat.eqb t) L); [reflexivity|]. apply nth_repeat_none.
Qed.
Lemma mem_in x l : mem x l = true <-> In x l.
Proof. unfold mem. rewrite existsb_exists. split; [intros (y & Hy & E); apply Nat.eqb_eq in E; now subst|]. intros Hx. exists x. split; [exact Hx|apply Nat.eqb_refl]. Qed.
Lemma result_row_glue n L R o i : (forall t, In t L -> ~ In t R) -> result_row n L R o i = glue n L R o i.
Proof.
  intros A. unfold result_row. unfold copy_from at 1. rewrite copy_length. unfold fetch_mem_row. rewrite repeat_length.
  unfold glue. apply map_ext_in. intros t Ht. apply in_seq in Ht. unfold copy_from. rewrite repeat_length, nth_seq_map by lia. fold (mem t R). fold (mem t L).
  destruct (mem t R) eqn:ER, (mem t L) eqn:EL; auto; [|apply nth_repeat_none].
  apply mem_in in ER, EL. destruct (A t EL ER).
Qed.
Lemma glue_l n L R o i t s : In t L -> (t < n)%nat -> get_value (glue n L R o i) t s = get_value o t s.
Proof. intros Ht Hn. unfold get_value, glue. rewrite nth_seq_map by exact Hn. fold (mem t L). apply mem_in in Ht as ->. reflexivity. Qed.
Lemma glue_r n L R o i t s : ~ In t L -> In t R -> (t < n)%nat -> get_value (glue n L R o i) t s = get_value i t s.
Proof.
  intros A Ht Hn. unfold get_value, glue. rewrite nth_seq_map by exact Hn. fold (mem t L). fold (mem t R). apply mem_in in Ht as ->.
  destruct (mem t L) eqn:E; [apply mem_in in E; contradiction|reflexivity].
Qed.

(* ---- the ON clause: key columns and the rest ---- *)

Lemma slot_pair_across L R a b l r : (forall t, In t L -> ~ In t R) -> slot_pair L R a b = Some (l, r) <-> across L R a b l r.
Proof.
  intros A. unfold slot_pair, across. destruct a as [x|? ?], b as [y|? ?]; try (split; [discriminate|intros [[[? ?]|[? ?]] _]; discriminate]).
  destruct (mem (s_tuple x) L && mem (s_tuple y) R) eqn:E1.
  - apply andb_true_iff in E1 as [E1 E2]. apply mem_in in E1, E2. split.
    + intros [= <- <-]. auto.
    + intros [[[[= <-] [= <-]]|[[= <-] [= <-]]] [E3 E4]]; [reflexivity|]. destruct (A _ E1 E4).
  - destruct (mem (s_tuple y) L && mem (s_tuple x) R) eqn:E2.
    + apply andb_true_iff in E2 as [E2 E3]. apply mem_in in E2, E3. split; [intros [= <- <-]; auto|].
      intros [[[[= <-] [= <-]]|[[= <-] [= <-]]] [E4 E5]]; [|reflexivity]. destruct (A _ E2 E5).
    + split; [discriminate|]. intros [[[[= <-] [= <-]]|[[= <-] [= <-]]] [E4 E5]]; apply mem_in in E4, E5; rewrite E4, E5 in *; discriminate.
Qed.

Section On.
Variables (n : nat) (L R : list nat) (cs : list jcond).
Hypothesis Apart : forall t, In t L -> ~ In t R.
Hypothesis Small : forall t, In t L \/ In t R -> (t < n)%nat.

Lemma key_pairs_join l r : In (l, r) (key_pairs L R cs) -> join_key L R cs l r.
Proof.
  unfold key_pairs. rewrite in_flat_map. intros (c & Hc & Hp). unfold join_key. destruct c as [a b|ps|f]; cbn [equal_condition] in Hp.
  - destruct (slot_pair L R a b) as [p|] eqn:E; [|destruct Hp]. destruct Hp as [->|[]]. apply slot_pair_across in E; [|exact Apart]. exists a, b. auto.
  - assert (X : exists a b, slot_pair L R a b = Some (l, r) /\ In (a, b) ps).
    { clear Hc. induction ps as [|[a b] ps IH]; [destruct Hp|]. cbn [row_pairs] in Hp. destruct (slot_pair L R a b) as [p|] eqn:E; [|destruct Hp].
      destruct (row_pairs L R ps) as [q ok]. destruct Hp as [->|Hp]; [exists a, b; cbn; auto|]. destruct (IH Hp) as (x & y & ? & ?). exists x, y. cbn; auto. }
    destruct X as (a & b & E & Hi). apply slot_pair_across in E; [|exact Apart]. exists a, b. split; [exact E|]. right. exists ps. auto.
  - destruct Hp.
Qed.

Lemma across_equal a b l r o i : across L R a b l r ->
  (equal_values (type_of a) (type_of b) (side (glue n L R o i) a) (side (glue n L R o i) b) <-> pair_equal o i (l, r)).
Proof.
  intros [[[-> ->]|[-> ->]] [Hl Hr]]; unfold pair_equal, col; cbn [type_of side fst snd];
    rewrite (glue_l n L R o i _ _ Hl), (glue_r n L R o i _ _ (fun X => Apart _ X Hr) Hr) by (apply Small; auto); [reflexivity|].
  split; apply equal_values_sym.
Qed.

Lemma row_pairs_holds o i ps :
  (Forall (fun p => equal_values (type_of (fst p)) (type_of (snd p)) (side (glue n L R o i) (fst p)) (side (glue n L R o i) (snd p))) ps ->
   Forall (pair_equal o i) (fst (row_pairs L R ps))) /\
  (snd (row_pairs L R ps) = true -> Forall (pair_equal o i) (fst (row_pairs L R ps)) ->
   Forall (fun p => equal_values (type_of (fst p)) (type_of (snd p)) (side (glue n L R o i) (fst p)) (side (glue n L R o i) (snd p))) ps).
Proof.
  induction ps as [|[a b] ps [IH1 IH2]]; cbn [row_pairs]; [split; constructor|].
  destruct (slot_pair L R a b) as [[l r]|] eqn:E; [|cbn; split; [constructor|discriminate]].
  apply slot_pair_across in E; [|exact Apart]. destruct (row_pairs L R ps) as [q ok]. cbn [fst snd] in *. split.
  - intros F. inversion F; subst. constructor; [|auto]. eapply across_equal; eauto.
  - intros K F. inversion F; subst. constructor; [|auto]. cbn. eapply across_equal; eauto.
Qed.

Lemma cond_holds o i c :
  (holds (glue n L R o i) c -> Forall (pair_equal o i) (fst (equal_condition L R c))) /\
  (snd (equal_condition L R c) = true -> Forall (pair_equal o i) (fst (equal_condition L R c)) -> holds (glue n L R o i) c).
Proof.
  destruct c as [a b|ps|f]; cbn [equal_condition holds].
  - destruct (slot_pair L R a b) as [[l r]|] eqn:E; [|cbn; split; [constructor|discriminate]].
    apply slot_pair_across in E; [|exact Apart]. cbn [fst snd]. split.
    + intros K. constructor; [|constructor]. eapply across_equal; eauto.
    + intros _ F. inversion F; subst. eapply across_equal; eauto.
  - apply row_pairs_holds.
  - cbn. split; [constructor|discriminate].
Qed.

Lemma on_split o i : Forall (holds (glue n L R o i)) cs <->
  Forall (holds (glue n L R o i)) (rest_conds L R cs) /\ Forall (pair_equal o i) (key_pairs L R cs).
Proof.
  unfold rest_conds, key_pairs. induction cs as [|c q IH]; cbn [filter flat_map]; [split; [intros _; split|]; constructor|].
  rewrite Forall_cons_iff, Forall_app, IH. destruct (cond_holds o i c) as [C1 C2]. destruct (snd (equal_condition L R c)) eqn:E; cbn [negb].
  - tauto.
  - rewrite Forall_cons_iff. tauto.
Qed.

Lemma rest_empty : only_keys L R cs -> rest_conds L R cs = [].
Proof.
  unfold only_keys, rest_conds. induction 1 as [|c q Hc _ IH]; [reflexivity|]. cbn [filter].
  assert (E : snd (equal_condition L R c) = true).
  { destruct c as [a b|ps|f]; cbn [equal_condition]; [| |destruct Hc].
    - destruct Hc as (l & r & X). apply slot_pair_across in X; [|exact Apart]. now rewrite X.
    - induction Hc as [|[a b] ps (l & r & X) _ IHp]; [reflexivity|]. cbn [row_pairs fst snd] in *. apply slot_pair_across in X; [|exact Apart]. rewrite X.
      destruct (row_pairs L R ps). exact IHp. }
  rewrite E. exact IH.
Qed.

(* ---- the hash map ---- *)
Variables (ls rs : list row) (in_eq : coltype -> coltype -> value -> value -> bool).
Let ps := key_pairs L R cs.
Hypothesis Types : forall l r, join_key L R cs l r -> comparable (s_type l) (s_type r) /\ Forall (typed l) ls /\ Forall (typed r) rs.
Hypothesis Nulls : nulls_apart L R cs ls.
Hypothesis InC : in_complete in_eq.

Lemma key_types : key_types_ok ps.
Proof. apply Forall_forall. intros [l r] H0. apply (Types l r). now apply key_pairs_join. Qed.
Lemma key_typed o i : In o ls -> In i rs -> Forall (fun p => typed (fst p) o /\ typed (snd p) i) ps.
Proof.
  intros Ho Hi. apply Forall_forall. intros [l r] H0. apply key_pairs_join in H0. destruct (Types l r H0) as (_ & A & B).
  rewrite Forall_forall in A, B. cbn. auto.
Qed.
Lemma pair_equal_some o i : Forall (pair_equal o i) ps -> Forall (fun p => col o (fst p) <> None /\ col i (snd p) <> None) ps.
Proof. apply Forall_impl. intros p (v & w & E1 & E2 & _). rewrite E1, E2. split; discriminate. Qed.
Lemma in_pass_some i : ps <> [] -> in_pass in_eq ps ls i = true -> Forall (fun p => col i (snd p) <> None) ps.
Proof.
  unfold in_pass. destruct ps as [|p0 q] eqn:E; [contradiction|]. intros _ X. apply existsb_exists in X as (o & _ & X).
  rewrite forallb_forall in X. apply Forall_forall. intros p Hp. specialize (X p Hp). destruct (col o (fst p)); [|discriminate].
  destruct (col i (snd p)); [discriminate|discriminate].
Qed.
Lemma in_pass_equal o i : In o ls -> Forall (pair_equal o i) ps -> in_pass in_eq ps ls i = true.
Proof.
  intros Ho F. unfold in_pass. destruct ps as [|p0 q] eqn:E; [reflexivity|]. rewrite <- E in *. apply existsb_exists. exists o. split; [exact Ho|].
  apply forallb_forall. rewrite Forall_forall in F. intros p Hp. specialize (F p Hp). unfold pair_equal in F.
  destruct F as (v & w & E1 & E2 & X). rewrite E1, E2. apply InC. exists v, w. auto.
Qed.
Lemma key_match o i : In o ls -> In i rs -> ps <> [] -> in_pass in_eq ps ls i = true ->
  (outer_key ps o = inner_key ps i <-> Forall (pair_equal o i) ps).
Proof.
  intros Ho Hi NE P. split.
  - intros E. apply keys_full; auto using key_types, key_typed.
    assert (Ni : Forall (fun p => col i (snd p) <> None) ps) by (apply in_pass_some; auto).
    assert (No : Forall (fun p => col o (fst p) <> None) ps).
    { destruct Nulls as [T|[T|T]].
      - eapply keys_null; eauto using key_types, key_typed. left. apply Forall_forall. intros [l r] H0. apply T. now apply key_pairs_join.
      - eapply keys_null; eauto using key_types, key_typed. right. apply Forall_forall. intros [l r] H0. apply T. now apply key_pairs_join.
      - apply Forall_forall. intros [l r] H0. apply (T l r o); [now apply key_pairs_join|exact Ho]. }
    rewrite Forall_forall in *. auto.
  - intros F. apply keys_full; auto using key_types, key_typed, pair_equal_some.
Qed.

(* a row of the hash map that satisfies the rest of the conditions *)
Variable on : row -> bool.
Hypothesis On : decides on cs.
Lemma on_match o i : In o ls -> In i rs -> ps <> [] -> in_pass in_eq ps ls i = true ->
  beqb (outer_key ps o) (inner_key ps i) && is_satisfy_filter (rest_conds L R cs) (result_row n L R o i) = on (glue n L R o i).
Proof.
  intros Ho Hi NE P. apply Bool.eq_iff_eq_true. rewrite andb_true_iff, beqb_eq, filter_spec, result_row_glue, (On (glue n L R o i)), on_split by exact Apart.
  rewrite key_match by assumption. fold ps. tauto.
Qed.
Lemma on_in_pass o i : In o ls -> on (glue n L R o i) = true -> in_pass in_eq ps ls i = true.
Proof. intros Ho E. apply On in E. apply on_split in E as [_ E]. eapply in_pass_equal; eauto. Qed.
Lemma on_nested o i : ps = [] -> is_satisfy_filter (rest_conds L R cs) (result_row n L R o i) = on (glue n L R o i).
Proof.
  intros E. apply Bool.eq_iff_eq_true. rewrite filter_spec, result_row_glue, (On (glue n L R o i)), on_split by exact Apart. fold ps. rewrite E. intuition constructor.
Qed.
End On.

(* ---- lists ---- *)

Lemma perm_flat_map_ext {A B} (f g : A -> list B) l : (forall a, In a l -> Permutation (f a) (g a)) -> Permutation (flat_map f l) (flat_map g l).
Proof. induction l; intros E; cbn; [constructor|]. apply Permutation_app; [apply E; now left|]. apply IHl. intros; apply E; now right. Qed.
Lemma perm_flat_map_list {A B} (f : A -> list B) l l' : Permutation l l' -> Permutation (flat_map f l) (flat_map f l').
Proof.
  induction 1; cbn; [constructor|now apply Permutation_app_head| |eapply perm_trans; eauto].
  rewrite !app_assoc. apply Permutation_app_tail. apply Permutation_app_comm.
Qed.
Lemma perm_filter {A} (p : A -> bool) l l' : Permutation l l' -> Permutation (filter p l) (filter p l').
Proof.
  induction 1; cbn; [constructor| | |eapply perm_trans; eauto].
  - destruct (p x); [now constructor|assumption].
  - destruct (p x), (p y); try apply perm_swap; reflexivity.
Qed.
Lemma flat_map_app_perm {A B} (f g : A -> list B) l : Permutation (flat_map (fun a => f a ++ g a) l) (flat_map f l ++ flat_map g l).
Proof.
  induction l; cbn; [constructor|]. rewrite <- !app_assoc. apply Permutation_app_head. etransitivity; [apply Permutation_app_head; exact IHl|].
  rewrite !app_assoc. apply Permutation_app_tail. apply Permutation_app_comm.
Qed.
Lemma flat_map_nil {A B} (l : list A) : flat_map (fun _ => @nil B) l = [].
Proof. induction l; auto. Qed.
Lemma swap_loops {A B C} (p : A -> B -> bool) (g : A -> B -> C) (xs : list A) (ys : list B) :
  Permutation (flat_map (fun y => map (fun x => g x y) (filter (fun x => p x y) xs)) ys) (flat_map (fun x => map (g x) (filter (p x) ys)) xs).
Proof.
  induction xs as [|x xs IH]; cbn [flat_map filter].
  - cbn. rewrite flat_map_nil. constructor.
  - transitivity (flat_map (fun y => (if p x y then [g x y] else []) ++ map (fun x => g x y) (filter (fun x => p x y) xs)) ys).
    + apply perm_flat_map_ext. intros y _. destruct (p x y); reflexivity.
    + rewrite flat_map_app_perm. apply Permutation_app; [|exact IH].
      clear. induction ys as [|y ys IH]; cbn; [constructor|]. destruct (p x y); cbn; [now constructor|exact IH].
Qed.
Lemma filter_filter {A} (p q : A -> bool) l : filter p (filter q l) = filter (fun x => q x && p x) l.
Proof. induction l; cbn; [reflexivity|]. destruct (q a); cbn; [destruct (p a)|]; congruence. Qed.

Lemma two_of {A} (p : A -> bool) l : (1 < length (filter p l))%nat -> exists x i y j z, l = x ++ i :: y ++ j :: z /\ p i = true /\ p j = true.
Proof.
  assert (Z1 : forall l, (1 <= length (filter p l))%nat -> exists y j z, l = y ++ j :: z /\ p j = true).
  { clear l. induction l as [|a l IH]; cbn; intros E; [lia|]. destruct (p a) eqn:Pa; [exists [], a, l; auto|].
    destruct (IH E) as (y & j & z & -> & Pj). exists (a :: y), j, z. auto. }
  induction l as [|a l IH]; cbn; intros E; [lia|]. destruct (p a) eqn:Pa.
  - cbn in E. destruct (Z1 l ltac:(lia)) as (y & j & z & -> & Pj). exists [], a, y, j, z. auto.
  - destruct (IH E) as (x & i & y & j & z & -> & Pi & Pj). exists (a :: x), i, y, j, z. auto.
Qed.

(* ---- the answers, with any limit ---- *)

Definition cut (k : option nat) (l : list row) : list row := match k with Some m => firstn m l | None => l end.

Section Node.
Variables (J : join) (outer inner : list row) (bs : list (list row)) (in_eq : coltype -> coltype -> value -> value -> bool) (on : row -> bool).
Let n := j_size J. Let L := j_outer J. Let R := j_inner J. Let cs := j_conds J.
Let ps := pairs_of J.
Hypothesis Ok : rows_ok n L R cs outer inner.
Hypothesis Nulls : nulls_apart L R cs outer.
Hypothesis InC : in_complete in_eq.
Hypothesis On : decides on cs.
Hypothesis Given : Permutation (concat bs) (filter (in_pass in_eq ps outer) inner).

Let Apart : forall t, In t L -> ~ In t R := ok_apart _ _ _ _ _ _ Ok.
Let Small : forall t, In t L \/ In t R -> (t < n)%nat := ok_small _ _ _ _ _ _ Ok.
Let Types := ok_types _ _ _ _ _ _ Ok.

Lemma given_in i : In i (concat bs) -> In i inner /\ in_pass in_eq ps outer i = true.
Proof. intros Hi. apply (Permutation_in _ Given) in Hi. now apply filter_In in Hi. Qed.

(* the partners of an outer row, from the rows given *)
Lemma partners_given o (p : row -> bool) : In o outer -> (forall i, In i (concat bs) -> p i = on (glue n L R o i)) ->
  Permutation (filter p (concat bs)) (partners n L R on o inner).
Proof.
  intros Ho E. unfold partners. rewrite (filter_ext_in _ _ _ E). rewrite (perm_filter _ _ _ Given), filter_filter.
  erewrite filter_ext; [reflexivity|]. intros i. cbn beta. destruct (on (glue n L R o i)) eqn:X; [|apply andb_false_r].
  rewrite andb_true_r. eapply on_in_pass; eauto.
Qed.

Definition inner_all : list row := flat_map (fun i => matches n L R (rest_of J) i (bucket (outer_key ps) outer (inner_key ps i))) (concat bs).
Lemma inner_all_join : ps <> [] -> Permutation inner_all (inner_join n L R on outer inner).
Proof.
  intros NE. unfold inner_all, matches, bucket. unfold inner_join.
  transitivity (flat_map (fun o => map (glue n L R o) (filter (fun i => on (glue n L R o i)) (concat bs))) outer).
  - rewrite <- (swap_loops (fun o i => on (glue n L R o i)) (glue n L R) outer (concat bs)).
    apply perm_flat_map_ext. intros i Hi. rewrite filter_filter. destruct (given_in i Hi) as [Hi' P].
    rewrite (map_ext _ (fun o => glue n L R o i)) by (intros; now apply result_row_glue).
    erewrite filter_ext_in; [reflexivity|]. intros o Ho. cbn beta. eapply (on_match n L R cs Apart Small outer inner in_eq); eauto.
  - apply perm_flat_map_ext. intros o Ho. apply Permutation_map. apply partners_given; auto.
Qed.

Lemma bucket_partners o : ps <> [] -> In o outer ->
  Permutation (filter (fun i => is_satisfy_filter (rest_of J) (result_row n L R o i)) (bucket (inner_key ps) (concat bs) (outer_key ps o)))
              (partners n L R on o inner).
Proof.
  intros NE Ho. unfold bucket. rewrite filter_filter. apply partners_given; [exact Ho|]. intros i Hi. destruct (given_in i Hi) as [Hi' P].
  rewrite <- (on_match n L R cs Apart Small outer inner in_eq Types Nulls on On o i Ho Hi' NE P). f_equal.
  change (key_pairs L R cs) with ps. apply Bool.eq_iff_eq_true. rewrite !beqb_eq. split; intros; symmetry; assumption.
Qed.

Definition outer_all : list row := flat_map (padded_row n L R (rest_of J) (fun o => bucket (inner_key ps) (concat bs) (outer_key ps o))) outer.
Lemma padded_join o : ps <> [] -> In o outer -> only_keys L R cs \/ at_most_one L R cs outer inner ->
  Permutation (padded_row n L R (rest_of J) (fun o => bucket (inner_key ps) (concat bs) (outer_key ps o)) o)
              (match partners n L R on o inner with [] => [alone n L o] | l => map (glue n L R o) l end).
Proof.
  intros NE Ho D. pose proof (bucket_partners o NE Ho) as B. unfold padded_row, padded.
  set (q := bucket (inner_key ps) (concat bs) (outer_key ps o)) in *.
  assert (C : Forall (fun i => is_satisfy_filter (rest_of J) (result_row n L R o i) = true) q \/ (length q <= 1)%nat).
  { destruct D as [D|D].
    - left. unfold rest_of. fold L R cs. rewrite (rest_empty L R cs Apart D). apply Forall_forall. reflexivity.
    - right. destruct (le_lt_dec (length q) 1) as [|X]; [assumption|]. exfalso.
      assert (Q : Permutation q (filter (fun i => in_pass in_eq ps outer i && beqb (inner_key ps i) (outer_key ps o)) inner)).
      { unfold q, bucket. rewrite (perm_filter _ _ _ Given), filter_filter. reflexivity. }
      apply Permutation_length in Q.
      assert (Y : exists x i y j z, inner = x ++ i :: y ++ j :: z /\ in_pass in_eq ps outer i && beqb (inner_key ps i) (outer_key ps o) = true /\
                    in_pass in_eq ps outer j && beqb (inner_key ps j) (outer_key ps o) = true).
      { rewrite Q in X. exact (two_of _ inner X). }
      destruct Y as (x & i & y & j & z & E & Pi & Pj).
      assert (A : forall i, In i inner -> in_pass in_eq ps outer i && beqb (inner_key ps i) (outer_key ps o) = true -> agrees L R cs o i).
      { intros k Hk Pk. apply andb_true_iff in Pk as [P1 P2]. apply beqb_eq in P2. symmetry in P2.
        apply (key_match L R cs Apart outer inner in_eq Types Nulls) in P2; auto.
        intros a b l r Ac Hc. rewrite Forall_forall in P2. apply (P2 (l, r)). unfold ps, pairs_of, key_pairs. apply in_flat_map. exists (CEq a b). split; [exact Hc|].
        cbn [equal_condition]. apply slot_pair_across in Ac; [|exact Apart]. fold L R. rewrite Ac. now left. }
      apply (D o x i y j z Ho E). split; apply A; auto; rewrite E; apply in_or_app; right; [now left|right; apply in_or_app; right; now left]. }
  destruct C as [C|C].
  - assert (F : filter (fun i => is_satisfy_filter (rest_of J) (result_row n L R o i)) q = q).
    { clear -C. induction C as [|i q Hi _ IH]; cbn; [reflexivity|]. rewrite Hi. now f_equal. }
    rewrite F in B. destruct q as [|i q].
    + apply Permutation_nil in B. rewrite B, null_row_alone. reflexivity.
    + destruct (partners n L R on o inner) as [|x y] eqn:E; [symmetry in B; now apply Permutation_nil_cons in B|].
      rewrite <- B. rewrite (map_ext_in _ (glue n L R o)); [reflexivity|]. intros k Hk. rewrite Forall_forall in C. rewrite (C k Hk). now apply result_row_glue.
  - destruct q as [|i [|j q]]; [| |cbn in C; lia]; cbn [filter map] in *.
    + apply Permutation_nil in B. rewrite B, null_row_alone. reflexivity.
    + destruct (is_satisfy_filter (rest_of J) (result_row n L R o i)).
      * apply Permutation_length_1_inv in B. rewrite B. cbn. now rewrite result_row_glue.
      * apply Permutation_nil in B. rewrite B, null_row_alone. reflexivity.
Qed.
Lemma outer_all_join : ps <> [] -> only_keys L R cs \/ at_most_one L R cs outer inner -> Permutation outer_all (left_join n L R on outer inner).
Proof. intros NE D. unfold outer_all, left_join. apply perm_flat_map_ext. intros o Ho. now apply padded_join. Qed.

Lemma pairs_partners o : ps = [] -> In o outer -> Permutation (pairs n L R (rest_of J) o (concat bs)) (map (glue n L R o) (partners n L R on o inner)).
Proof.
  intros E Ho. unfold pairs. rewrite (map_ext _ (glue n L R o)) by (intros; now apply result_row_glue). apply Permutation_map.
  apply partners_given; [exact Ho|]. intros i _. now apply on_nested.
Qed.
Lemma nested_inner_join : ps = [] -> Permutation (pairs_all n L R (rest_of J) (concat bs) outer) (inner_join n L R on outer inner).
Proof. intros E. unfold pairs_all, inner_join. apply perm_flat_map_ext. intros o Ho. now apply pairs_partners. Qed.
Lemma nested_left_join : ps = [] -> Permutation (flat_map (pairs_or_null n L R (rest_of J) (concat bs)) outer) (left_join n L R on outer inner).
Proof.
  intros E. unfold left_join. apply perm_flat_map_ext. intros o Ho. unfold pairs_or_null. pose proof (pairs_partners o E Ho) as B.
  destruct (pairs n L R (rest_of J) o (concat bs)) as [|x y].
  - apply Permutation_nil in B. apply map_eq_nil in B. rewrite B, null_row_alone. reflexivity.
  - rewrite B. destruct (partners n L R on o inner); [symmetry in B; now apply Permutation_nil_cons in B|reflexivity].
Qed.

(* ---- the node ---- *)

Definition rows_left (s : jstate) : list row :=
  match s with
  | SNested i os is _ => nested_todo n L R (rest_of J) i (os, is, 0)
  | SOuter i os idx cnt => lim (j_limit J) cnt (outer_todo n L R (rest_of J) (fun o => bucket (inner_key ps) i (outer_key ps o)) (os, idx, cnt))
  | SInner o cur idx bs cnt => lim (j_limit J) cnt (inner_todo n L R (rest_of J) (fun i => bucket (outer_key ps) o (inner_key ps i)) (cur, idx, bs, cnt))
  | SEnd => []
  end.
Definition kind (s : jstate) : Prop :=
  match s with
  | SNested _ _ _ _ => j_limit J = None /\ j_type J = JInner
  | SOuter _ _ _ _ => j_type J = JLeft \/ j_type J = JRight
  | SInner _ _ _ _ _ => j_type J = JInner
  | SEnd => True
  end.
Lemma next_rows cap s b eos s' : kind s -> get_next J cap s = (b, eos, s') ->
  kind s' /\ if eos then b = rows_left s else rows_left s = b ++ rows_left s' /\ cap <= length b.
Proof.
  intros K E. destruct s as [i os is cnt|i os idx cnt|o cur idx q cnt|]; cbn [get_next] in E.
  - destruct K as [K1 K2]. pose proof (nested_loop_inner n L R (j_type J) (rest_of J) (j_limit J) cap K1 (or_introl K2) i os is [] cnt) as G.
    unfold n, L, R in G. destruct (nested_loop _ _ _ _ _ _ _ _ _ _ _ _) as [[b' e'] [[os' is'] cnt']]. injection E as <- <- <-.
    split; [split; assumption|]. destruct e'.
    + rewrite G. destruct os; reflexivity.
    + destruct G as (e & E1 & -> & C). split; [|exact C]. cbn [rows_left app]. destruct os, os'; exact E1.
  - pose proof (hash_outer_answer n L R (j_type J) (rest_of J) (j_limit J) cap K (fun o => bucket (inner_key ps) i (outer_key ps o)) os idx [] cnt) as G.
    unfold n, L, R, ps in G. destruct (hash_outer _ _ _ _ _ _ _ _ _ _ _ _) as [[b' e'] [[os' idx'] cnt']]. injection E as <- <- <-.
    split; [exact K|]. cbn [answer] in G. destruct e'.
    + exact G.
    + destruct G as (e & E1 & -> & E2 & F & C). split; [|exact C]. cbn [rows_left app]. cbn [snd] in E2. subst cnt'.
      unfold n, L, R, ps. rewrite E1. rewrite lim_app by exact F. reflexivity.
  - pose proof (hash_inner_answer n L R (j_type J) (rest_of J) (j_limit J) cap (or_introl K) (fun i => bucket (outer_key ps) o (inner_key ps i)) q cur idx [] cnt) as G.
    unfold n, L, R, ps in G. destruct (hash_inner _ _ _ _ _ _ _ _ _ _ _ _ _) as [[b' e'] [[[cur' idx'] q'] cnt']]. injection E as <- <- <-.
    split; [exact K|]. cbn [answer] in G. destruct e'.
    + exact G.
    + destruct G as (e & E1 & -> & E2 & F & C). split; [|exact C]. cbn [rows_left app]. cbn [snd] in E2. subst cnt'.
      unfold n, L, R, ps. rewrite E1. rewrite lim_app by exact F. reflexivity.
  - injection E as <- <- <-. split; [exact K|reflexivity].
Qed.
Lemma drain_rows : forall caps s acc, kind s -> enough caps (length (rows_left s)) -> drain J caps s acc = Some (acc ++ rows_left s).
Proof.
  induction caps as [|c q IH]; intros s acc K [Le F]; [cbn in Le; lia|]. inversion F; subst.
  cbn [drain]. destruct (get_next J c s) as [[b eos] s'] eqn:E. apply next_rows in E as [K' E]; [|exact K]. destruct eos; [now subst|].
  destruct E as [E C]. rewrite E, app_assoc. apply IH; [exact K'|]. split; [|assumption]. cbn [length] in Le. rewrite E, app_length in Le. lia.
Qed.
Lemma enough_le caps a b : a <= b -> enough caps b -> enough caps a.
Proof. unfold enough. intros ? [? ?]. split; [lia|assumption]. Qed.
Lemma lim_0 l : lim (j_limit J) 0 l = cut (j_limit J) l.
Proof. unfold lim, cut. destruct (j_limit J); rewrite ?Nat.sub_0_r; reflexivity. Qed.
Lemma cut_length k l : length (cut k l) <= length l.
Proof. destruct k; cbn; [rewrite firstn_length; lia|lia]. Qed.

Lemma open_nil : outer = [] -> open J outer bs = SEnd.
Proof. intros E. unfold open. now rewrite E. Qed.
Lemma open_some : outer <> [] -> open J outer bs =
  match pairs_of J with
  | [] => SNested (concat bs) outer (concat bs) 0
  | _ => match j_type J with JLeft | JRight => SOuter (concat bs) outer 0 0 | _ => SInner outer [] 0 bs 0 end
  end.
Proof. clear. intros E. unfold open. now destruct outer. Qed.
Lemma nil_or : outer = [] \/ outer <> [].
Proof. clear. destruct outer; [now left|now right]. Qed.
Lemma drain_end caps k : enough caps k -> drain J caps SEnd [] = Some [].
Proof. intros [A _]. destruct caps; [cbn in A; lia|reflexivity]. Qed.
Lemma cut_nil k : cut k [] = [].
Proof. destruct k as [[]|]; reflexivity. Qed.

Theorem hash_inner_rows caps : ps <> [] -> j_type J = JInner -> enough caps (length (inner_join n L R on outer inner)) ->
  exists all, Permutation all (inner_join n L R on outer inner) /\ drain J caps (open J outer bs) [] = Some (cut (j_limit J) all).
Proof.
  intros NE T C. destruct nil_or as [EO|EO].
  - exists []. split; [rewrite EO; reflexivity|]. rewrite open_nil by exact EO. rewrite ?cut_nil. eapply drain_end; exact C.
  - rewrite open_some by exact EO. exists inner_all. pose proof (inner_all_join NE) as P. split; [exact P|].
    fold ps. destruct ps eqn:EP; [contradiction|]. rewrite <- EP in *. rewrite T.
    replace (cut (j_limit J) inner_all) with (rows_left (SInner outer [] 0 bs 0)).
    + apply (drain_rows caps (SInner outer [] 0 bs 0) []); [exact T|]. cbn [rows_left inner_todo left_matches app].
      rewrite lim_0. eapply enough_le; [|exact C]. apply Permutation_length in P. rewrite <- P. etransitivity; [apply cut_length|]. reflexivity.
    + cbn [rows_left inner_todo left_matches app]. rewrite lim_0. reflexivity.
Qed.
Theorem nested_inner_rows caps : ps = [] -> j_type J = JInner -> j_limit J = None -> enough caps (length (inner_join n L R on outer inner)) ->
  exists all, Permutation all (inner_join n L R on outer inner) /\ drain J caps (open J outer bs) [] = Some all.
Proof.
  intros E T NL C. destruct nil_or as [EO|EO].
  - exists []. split; [rewrite EO; reflexivity|]. rewrite open_nil by exact EO. rewrite ?cut_nil. eapply drain_end; exact C.
  - rewrite open_some by exact EO. pose proof (nested_inner_join E) as P. exists (pairs_all n L R (rest_of J) (concat bs) outer). split; [exact P|].
    fold ps. rewrite E.
    replace (pairs_all n L R (rest_of J) (concat bs) outer) with (rows_left (SNested (concat bs) outer (concat bs) 0)).
    + apply (drain_rows caps (SNested (concat bs) outer (concat bs) 0) []); [now split|].
      eapply enough_le; [|exact C]. cbn [rows_left]. rewrite nested_todo_all. apply Permutation_length in P. lia.
    + cbn [rows_left]. apply nested_todo_all.
Qed.
Theorem hash_outer_rows caps : ps <> [] -> j_type J = JLeft \/ j_type J = JRight -> only_keys L R cs \/ at_most_one L R cs outer inner ->
  enough caps (length (left_join n L R on outer inner)) ->
  exists all, Permutation all (left_join n L R on outer inner) /\ drain J caps (open J outer bs) [] = Some (cut (j_limit J) all).
Proof.
  intros NE T D C. destruct nil_or as [EO|EO].
  - exists []. split; [rewrite EO; reflexivity|]. rewrite open_nil by exact EO. rewrite ?cut_nil. eapply drain_end; exact C.
  - rewrite open_some by exact EO. exists outer_all. pose proof (outer_all_join NE D) as P. split; [exact P|].
    fold ps. destruct ps eqn:EP; [contradiction|]. rewrite <- EP in *.
    replace (match j_type J with JLeft | JRight => SOuter (concat bs) outer 0 0 | _ => SInner outer [] 0 bs 0 end) with (SOuter (concat bs) outer 0 0)
      by (destruct T as [->| ->]; reflexivity).
    assert (X : rows_left (SOuter (concat bs) outer 0 0) = cut (j_limit J) outer_all) by (cbn [rows_left]; rewrite lim_0, outer_todo_0; reflexivity).
    rewrite <- X.
    apply (drain_rows caps (SOuter (concat bs) outer 0 0) []); [exact T|]. rewrite X.
      eapply enough_le; [|exact C]. apply Permutation_length in P. rewrite <- P. apply cut_length.
Qed.
Theorem nested_outer_rows cap : ps = [] -> j_type J = JLeft \/ j_type J = JRight -> j_limit J = None ->
  length (left_join n L R on outer inner) < cap ->
  exists all, Permutation all (left_join n L R on outer inner) /\ forall caps, drain J (cap :: caps) (open J outer bs) [] = Some all.
Proof.
  intros E T NL C. destruct nil_or as [EO|EO].
  - exists []. split; [rewrite EO; reflexivity|]. rewrite open_nil by exact EO. reflexivity.
  - rewrite open_some by exact EO. pose proof (nested_left_join E) as P. eexists. split; [exact P|]. intros caps.
    fold ps. rewrite E. cbn [drain get_next].
    pose proof (nested_loop_outer n L R (j_type J) (rest_of J) (j_limit J) cap NL T (concat bs) outer [] 0) as G.
    unfold n, L, R in *. destruct (nested_loop _ _ _ _ _ _ _ _ _ _ _ _) as [[b' e'] [[os' is'] cnt']].
    destruct G as [-> ->]; [|reflexivity]. apply Permutation_length in P. cbn [length Nat.add]. lia.
Qed.
End Node.
