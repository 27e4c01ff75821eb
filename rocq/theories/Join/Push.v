(* Pushdown and conversion of joins keep the rows of a plan. *)
From Coq Require Import List ZArith Bool Arith Lia Sorting.Permutation.
From Verif Require Import Common.Bytes Key.Model Join.Model Join.Spec Join.Rows Join.Plan Join.PlanSpec.
Import ListNotations.

(* ---- expressions ---- *)

Section ExprInd.
Variable P : expr -> Prop.
Hypothesis HS : forall t s, P (ESlot t s).
Hypothesis HC : forall v, P (EConst v).
Hypothesis HF : forall f l, Forall P l -> P (EFn f l).
Hypothesis HN : forall f l, Forall P l -> P (ENull f l).
Hypothesis HT : forall f l, Forall P l -> P (ETol f l).
Hypothesis HA : forall a b, P a -> P b -> P (EAnd a b).
Hypothesis HO : forall a b, P a -> P b -> P (EOr a b).
Fixpoint expr_ind' (e : expr) : P e :=
  let go := fix go (l : list expr) : Forall P l := match l with [] => Forall_nil _ | e :: q => Forall_cons _ (expr_ind' e) (go q) end in
  match e with
  | ESlot t s => HS t s
  | EConst v => HC v
  | EFn f l => HF f l (go l)
  | ENull f l => HN f l (go l)
  | ETol f l => HT f l (go l)
  | EAnd a b => HA a b (expr_ind' a) (expr_ind' b)
  | EOr a b => HO a b (expr_ind' a) (expr_ind' b)
  end.
End ExprInd.

Lemma contains_about ids e : contains ids e = true <-> about ids e.
Proof. unfold contains, about. rewrite forallb_forall. split; intros H0 t Ht; apply mem_in; auto. Qed.

Lemma null_aware_spec e : contains_null_function e = true <-> null_aware e.
Proof.
  split.
  - induction e as [t s|v|f l IH|f l IH|f l IH|a b IHa IHb|a b IHa IHb] using expr_ind'; cbn; try discriminate.
    + intros E. apply existsb_exists in E as (x & Hx & E). rewrite Forall_forall in IH. eapply na_fn; eauto.
    + intros _. constructor.
    + intros E. apply existsb_exists in E as (x & Hx & E). rewrite Forall_forall in IH. eapply na_tol; eauto.
    + intros E. apply orb_true_iff in E as [E|E]; [apply na_and_l|apply na_and_r]; auto.
    + intros E. apply orb_true_iff in E as [E|E]; [apply na_or_l|apply na_or_r]; auto.
  - induction 1; cbn; auto; try (apply existsb_exists; eauto); rewrite IHnull_aware; auto using orb_true_r.
Qed.

Lemma eval_ext r r' e : (forall t s, In t (tuple_ids e) -> get_value r t s = get_value r' t s) -> eval_expr r e = eval_expr r' e.
Proof.
  induction e as [t s|v|f l IH|f l IH|f l IH|a b IHa IHb|a b IHa IHb] using expr_ind'; cbn [eval_expr tuple_ids]; intros E; auto.
  - apply E. now left.
  - assert (X : map (eval_expr r) l = map (eval_expr r') l); [|now rewrite X].
    apply map_ext_in. intros x Hx. rewrite Forall_forall in IH. apply IH; [exact Hx|]. intros t s Ht. apply E. apply in_flat_map. eauto.
  - f_equal. apply map_ext_in. intros x Hx. rewrite Forall_forall in IH. apply IH; [exact Hx|]. intros t s Ht. apply E. apply in_flat_map. eauto.
  - f_equal. apply map_ext_in. intros x Hx. rewrite Forall_forall in IH. apply IH; [exact Hx|]. intros t s Ht. apply E. apply in_flat_map. eauto.
  - rewrite IHa, IHb; auto; intros t s Ht; apply E; apply in_or_app; auto.
  - rewrite IHa, IHb; auto; intros t s Ht; apply E; apply in_or_app; auto.
Qed.
Lemma is_true_ext r r' e : (forall t s, In t (tuple_ids e) -> get_value r t s = get_value r' t s) -> is_true e r = is_true e r'.
Proof. intros E. unfold is_true. now rewrite (eval_ext r r' e E). Qed.

Lemma all_some_none {A} (l : list (option A)) : In None l -> all_some l = None.
Proof. induction l as [|[x|] l IH]; cbn; [intros []| |reflexivity]. intros [E|E]; [discriminate|]. now rewrite IH. Qed.
(* a column it reads is NULL *)
Lemma strict_null r e : strict e -> (exists t, In t (tuple_ids e) /\ forall s, get_value r t s = None) -> eval_expr r e = None.
Proof.
  induction e as [t s|v|f l IH|f l IH|f l IH|a b IHa IHb|a b IHa IHb] using expr_ind'; intros St (x & Hx & N); try (inversion St; fail).
  - destruct Hx as [<-|[]]. apply N.
  - destruct Hx.
  - inversion St; subst. cbn [tuple_ids] in Hx. apply in_flat_map in Hx as (e & He & Hx). cbn [eval_expr].
    rewrite all_some_none; [reflexivity|]. apply in_map_iff. exists e. split; [|exact He]. rewrite Forall_forall in *. apply IH; eauto.
Qed.
Lemma strict_no_or e : strict e -> contains_or e = false.
Proof.
  induction e as [t s|v|f l IH|f l IH|f l IH|a b IHa IHb|a b IHa IHb] using expr_ind'; intros St; try (inversion St; fail); auto.
  inversion St; subst. cbn. apply Bool.not_true_iff_false. intros E. apply existsb_exists in E as (e & He & E). rewrite Forall_forall in *. rewrite IH in E; auto; discriminate.
Qed.
(* all columns it reads are NULL *)
Lemma plain_all_null r e : plain e -> reads e -> (forall t s, In t (tuple_ids e) -> get_value r t s = None) -> eval_expr r e = None.
Proof.
  induction 1 as [e St|a b Pa IHa Pb IHb Ra Rb|a b Pa IHa Pb IHb Ra Rb]; intros Rd N.
  - apply strict_null; [exact St|]. unfold reads in Rd. destruct (tuple_ids e) as [|t q] eqn:E; [congruence|]. exists t. split; [now left|]. intros s. apply N. now left.
  - cbn [tuple_ids] in N. cbn [eval_expr]. rewrite IHa, IHb; auto; intros t s Ht; apply N; apply in_or_app; auto.
  - cbn [tuple_ids] in N. cbn [eval_expr]. rewrite IHa, IHb; auto; intros t s Ht; apply N; apply in_or_app; auto.
Qed.
(* without OR, one is enough not to be TRUE *)
Lemma plain_null_not_true r e : plain e -> contains_or e = false -> (exists t, In t (tuple_ids e) /\ forall s, get_value r t s = None) -> is_true e r = false.
Proof.
  induction 1 as [e St|a b Pa IHa Pb IHb Ra Rb|a b Pa IHa Pb IHb Ra Rb]; intros NO (t & Ht & N).
  - unfold is_true. rewrite strict_null; eauto.
  - cbn [contains_or] in NO. apply orb_false_iff in NO as [Na Nb]. cbn [tuple_ids] in Ht.
    assert (X : is_true a r = false \/ is_true b r = false) by (apply in_app_or in Ht as [Ht|Ht]; [left|right]; eauto).
    unfold is_true in *. cbn [eval_expr]. destruct (eval_expr r a) as [va|], (eval_expr r b) as [vb|]; cbn [option_map]; try reflexivity;
      try (destruct (truth va)); try (destruct (truth vb)); cbn; try reflexivity; destruct X; discriminate.
  - discriminate.
Qed.

(* ---- conjunctions ---- *)

Lemma all_true_in es r : all_true es r = true <-> forall e, In e es -> is_true e r = true.
Proof. unfold all_true. apply forallb_forall. Qed.
Lemma all_true_app a b r : all_true (a ++ b) r = all_true a r && all_true b r.
Proof. unfold all_true. apply forallb_app. Qed.
Lemma all_true_ext es r r' : (forall e t s, In e es -> In t (tuple_ids e) -> get_value r t s = get_value r' t s) -> all_true es r = all_true es r'.
Proof.
  intros E. apply Bool.eq_iff_eq_true. rewrite !all_true_in. split; intros A e He; specialize (A e He).
  - rewrite <- A. apply is_true_ext. intros. symmetry. eauto.
  - rewrite <- A. apply is_true_ext. intros. eauto.
Qed.
Lemma filter_weaken {A} (p q : A -> bool) a b : (forall x, q x = true -> p x = true) -> Permutation (filter p a) (filter p b) -> Permutation (filter q a) (filter q b).
Proof.
  intros I P. apply (perm_filter q) in P. rewrite !filter_filter in P.
  rewrite (filter_ext (fun x => p x && q x) q) in P; [|intros x; destruct (q x) eqn:E; [rewrite (I x E)|rewrite andb_false_r]; reflexivity].
  rewrite (filter_ext (fun x => p x && q x) q) in P; [|intros x; destruct (q x) eqn:E; [rewrite (I x E)|rewrite andb_false_r]; reflexivity]. exact P.
Qed.
Lemma filter_true {A} (p : A -> bool) l : (forall x, p x = true) -> filter p l = l.
Proof. intros T. induction l; cbn; [reflexivity|]. rewrite T. now f_equal. Qed.

(* ---- joins as lists of pairs ---- *)

Lemma filter_map {A B} (f : A -> B) p l : filter p (map f l) = map f (filter (fun x => p (f x)) l).
Proof. induction l; cbn; [reflexivity|]. destruct (p (f a)); cbn; congruence. Qed.
Lemma filter_none {A} (p : A -> bool) l : (forall x, In x l -> p x = false) -> filter p l = [].
Proof. induction l; cbn; intros E; [reflexivity|]. rewrite E by now left. apply IHl. intros; apply E; now right. Qed.
Lemma filter_flat_map {A B} (f : A -> list B) p l : filter p (flat_map f l) = flat_map (fun x => filter p (f x)) l.
Proof. induction l; cbn; [reflexivity|]. now rewrite filter_app, IHl. Qed.

Section Joins.
Variables (n : nat) (L R : list nat).
Hypothesis Apart : forall t, In t L -> ~ In t R.
Hypothesis Small : forall t, In t L \/ In t R -> t < n.

Lemma glue_sym l r : glue n L R l r = glue n R L r l.
Proof.
  unfold glue. apply map_ext. intros t. fold (mem t L). fold (mem t R). destruct (mem t L) eqn:EL, (mem t R) eqn:ER; auto.
  apply mem_in in EL, ER. destruct (Apart t EL ER).
Qed.
Lemma about_l es l r : (forall e, In e es -> about L e) -> all_true es (glue n L R l r) = all_true es l.
Proof. intros A. apply all_true_ext. intros e t s He Ht. apply glue_l; [eapply A; eauto|]. apply Small. left. eapply A; eauto. Qed.
Lemma about_r es l r : (forall e, In e es -> about R e) -> all_true es (glue n L R l r) = all_true es r.
Proof.
  intros A. apply all_true_ext. intros e t s He Ht. assert (Hr : In t R) by (eapply A; eauto). apply glue_r; auto. intros Hl. exact (Apart t Hl Hr).
Qed.
Lemma about_alone es l : (forall e, In e es -> about L e) -> all_true es (alone n L l) = all_true es l.
Proof. intros A. apply all_true_ext. intros e t s He Ht. apply glue_l; [eapply A; eauto|]. apply Small. left. eapply A; eauto. Qed.
Lemma alone_null l t s : ~ In t L -> get_value (alone n L l) t s = None.
Proof.
  intros Hn. unfold get_value, alone, glue. destruct (le_lt_dec n t) as [C|C].
  - rewrite nth_overflow by (rewrite map_length, seq_length; exact C). reflexivity.
  - rewrite nth_seq_map by exact C. fold (mem t L). destruct (mem t L) eqn:E; [apply mem_in in E; contradiction|reflexivity].
Qed.

(* a condition that rejects the rows without partner *)
Lemma reject_alone e l : usual e -> ~ null_aware e ->
  (about R e \/ about (L ++ R) e /\ ~ about L e /\ contains_or e = false) -> is_true e (alone n L l) = false.
Proof.
  intros [Rd [Na|Pl]] NN D; [contradiction|]. destruct D as [D|(D & NL & NO)].
  - unfold is_true. rewrite plain_all_null; auto. intros t s Ht. apply alone_null. intros Hl. exact (Apart t Hl (D t Ht)).
  - apply plain_null_not_true; auto. destruct (existsb (fun t => negb (mem t L)) (tuple_ids e)) eqn:E.
    + apply existsb_exists in E as (t & Ht & E). exists t. split; [exact Ht|]. intros s. apply alone_null. intros Hl. apply mem_in in Hl. now rewrite Hl in E.
    + exfalso. apply NL. intros t Ht. apply mem_in. destruct (mem t L) eqn:M; [reflexivity|]. assert (existsb (fun t => negb (mem t L)) (tuple_ids e) = true); [|congruence].
      apply existsb_exists. exists t. now rewrite M.
Qed.

(* the inner join under a filter: conditions about one side go to that side *)
Lemma inner_push on q on' a b ls rs :
  (forall e, In e a -> about L e) -> (forall e, In e b -> about R e) ->
  (forall r, all_true on r && all_true q r = all_true on' r && (all_true a r && all_true b r)) ->
  filter (all_true q) (inner_join n L R (all_true on) ls rs) = inner_join n L R (all_true on') (filter (all_true a) ls) (filter (all_true b) rs).
Proof.
  intros A B E. unfold inner_join. rewrite filter_flat_map. induction ls as [|l ls IH]; cbn [flat_map filter]; [reflexivity|].
  assert (X : filter (all_true q) (map (glue n L R l) (partners n L R (all_true on) l rs)) =
              if all_true a l then map (glue n L R l) (partners n L R (all_true on') l (filter (all_true b) rs)) else []).
  { rewrite filter_map. unfold partners. rewrite !filter_filter. destruct (all_true a l) eqn:Ea.
    - f_equal. apply filter_ext. intros r. rewrite E, (about_l a l r A), (about_r b l r B), Ea. cbn [andb]. apply andb_comm.
    - rewrite filter_none; [reflexivity|]. intros r _. rewrite E, (about_l a l r A), Ea. cbn [andb]. apply andb_false_r. }
  rewrite X. destruct (all_true a l); [|exact IH]. cbn [flat_map]. now f_equal.
Qed.
Lemma left_push on q on' q' a b ls rs :
  (forall e, In e a -> about L e) -> (forall e, In e b -> about R e) ->
  (forall r, all_true on r = all_true on' r && all_true b r) -> (forall r, all_true q r = all_true q' r && all_true a r) ->
  filter (all_true q) (left_join n L R (all_true on) ls rs) = filter (all_true q') (left_join n L R (all_true on') (filter (all_true a) ls) (filter (all_true b) rs)).
Proof.
  intros A B Eon Eq. unfold left_join. rewrite !filter_flat_map. induction ls as [|l ls IH]; cbn [flat_map filter]; [reflexivity|].
  assert (P : partners n L R (all_true on) l rs = partners n L R (all_true on') l (filter (all_true b) rs)).
  { unfold partners. rewrite filter_filter. apply filter_ext. intros r. rewrite Eon, (about_r b l r B). apply andb_comm. }
  rewrite P. destruct (all_true a l) eqn:Ea; cbn [flat_map]; rewrite IH.
  - f_equal. apply filter_ext_in. intros x Hx. rewrite Eq. assert (X : all_true a x = true); [|now rewrite X, andb_true_r].
    destruct (partners n L R (all_true on') l (filter (all_true b) rs)).
    + destruct Hx as [<-|[]]. now rewrite about_alone.
    + apply in_map_iff in Hx as (r0 & <- & _). now rewrite about_l.
  - rewrite filter_none; [reflexivity|]. intros x Hx. rewrite Eq. assert (X : all_true a x = false); [|now rewrite X, andb_false_r].
    destruct (partners n L R (all_true on') l (filter (all_true b) rs)).
    + destruct Hx as [<-|[]]. now rewrite about_alone.
    + apply in_map_iff in Hx as (r0 & <- & _). now rewrite about_l.
Qed.

Definition unmatched (on : row -> bool) (ls rs : list row) : list row := filter (fun l => negb (existsb (fun r => on (glue n L R l r)) rs)) ls.
Lemma left_join_split on ls rs : Permutation (left_join n L R on ls rs) (inner_join n L R on ls rs ++ map (alone n L) (unmatched on ls rs)).
Proof.
  unfold left_join, inner_join, unmatched. induction ls as [|l ls IH]; cbn [flat_map filter map]; [constructor|].
  rewrite IH. assert (X : existsb (fun r => on (glue n L R l r)) rs = match partners n L R on l rs with [] => false | _ => true end).
  { unfold partners. clear. induction rs as [|r rs IH]; cbn; [reflexivity|]. destruct (on (glue n L R l r)); [reflexivity|exact IH]. }
  rewrite X. destruct (partners n L R on l rs) as [|r q]; cbn [negb map app].
  - apply Permutation_middle.
  - rewrite <- app_assoc. reflexivity.
Qed.
Lemma inner_perm on ls ls' rs rs' : Permutation ls ls' -> Permutation rs rs' -> Permutation (inner_join n L R on ls rs) (inner_join n L R on ls' rs').
Proof.
  intros A B. unfold inner_join. rewrite (perm_flat_map_list _ _ _ A). apply perm_flat_map_ext. intros l _. apply Permutation_map. now apply perm_filter.
Qed.
Lemma existsb_perm {A} (p : A -> bool) l l' : Permutation l l' -> existsb p l = existsb p l'.
Proof. intros P. apply Bool.eq_iff_eq_true. rewrite !existsb_exists. split; intros (x & Hx & E); exists x; split; auto; [|symmetry in P]; eapply Permutation_in; eauto. Qed.
Lemma unmatched_perm on ls ls' rs rs' : Permutation ls ls' -> Permutation rs rs' -> Permutation (unmatched on ls rs) (unmatched on ls' rs').
Proof.
  intros A B. unfold unmatched. rewrite (perm_filter _ _ _ A). erewrite filter_ext; [reflexivity|]. intros l. cbn. f_equal. now apply existsb_perm.
Qed.
Lemma left_perm on ls ls' rs rs' : Permutation ls ls' -> Permutation rs rs' -> Permutation (left_join n L R on ls rs) (left_join n L R on ls' rs').
Proof.
  intros A B. rewrite !left_join_split. apply Permutation_app; [now apply inner_perm|]. apply Permutation_map. now apply unmatched_perm.
Qed.
End Joins.

Section Both.
Variables (n : nat) (L R : list nat).
Hypothesis Apart : forall t, In t L -> ~ In t R.
Let Apart' : forall t, In t R -> ~ In t L := fun t a b => Apart t b a.
Lemma inner_sym on ls rs : Permutation (inner_join n L R on ls rs) (inner_join n R L on rs ls).
Proof.
  unfold inner_join, partners.
  rewrite <- (swap_loops (fun l r => on (glue n L R l r)) (glue n L R) ls rs). apply perm_flat_map_ext. intros r _.
  rewrite (map_ext (fun l => glue n L R l r) (glue n R L r)) by (intros l; now apply glue_sym).
  erewrite filter_ext; [reflexivity|]. intros l. cbn. now rewrite (glue_sym n L R Apart l r).
Qed.
Lemma full_split on ls rs : Permutation (full_join n L R on ls rs)
  (inner_join n L R on ls rs ++ map (alone n L) (unmatched n L R on ls rs) ++ map (alone n R) (unmatched n R L on rs ls)).
Proof.
  unfold full_join. rewrite left_join_split, <- app_assoc. do 2 apply Permutation_app_head. apply Permutation_map. unfold lonely, unmatched.
  erewrite filter_ext; [reflexivity|]. intros r. cbn. f_equal. apply Bool.eq_iff_eq_true. rewrite !existsb_exists.
  split; intros (l & Hl & E); exists l; split; auto; [rewrite glue_sym by exact Apart'|rewrite glue_sym by exact Apart]; exact E.
Qed.
Lemma right_split on ls rs : Permutation (right_join n L R on ls rs)
  (inner_join n L R on ls rs ++ map (alone n R) (unmatched n R L on rs ls)).
Proof. unfold right_join. rewrite left_join_split. apply Permutation_app_tail. symmetry. apply inner_sym. Qed.
Lemma full_perm on ls ls' rs rs' : Permutation ls ls' -> Permutation rs rs' -> Permutation (full_join n L R on ls rs) (full_join n L R on ls' rs').
Proof.
  intros A B. rewrite !full_split. repeat apply Permutation_app; [now apply inner_perm| |]; apply Permutation_map; now apply unmatched_perm.
Qed.
End Both.
