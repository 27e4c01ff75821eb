(* Proofs: the node cuts its input into partitions, whatever the batches. *)
From Coq Require Import List ZArith Bool Lia Sorting.Sorted.
From Verif Require Import Common.Bytes Key.Model Key.Spec Agg.Model Agg.Spec Agg.Lists Agg.Group Agg.Top.
From Verif Require Import Window.Model Window.Spec Window.Fn Window.Order Window.Rank Window.Run.
Import ListNotations.
Local Open Scope Z_scope.

(* ---- one partition, all functions ---- *)
Lemma run_fns_ok s m fs p : in_order (s_order s) p -> p <> [] -> size p < 2 ^ 31 -> small_frame s p ->
  (forall f, In f fs -> check_valid f s = true /\ own_frame s f m /\ small_fn f p) ->
  forall is, Forall2 shaped fs is ->
  exists is' cols, run_fns (s_order s) m fs is p = Some (is', cols) /\ run_fns (s_order s) m fs (map initialize fs) p = Some (is', cols) /\
    Forall2 shaped fs is' /\ Forall2 (fun f vs => values_ok s f p vs) fs cols.
Proof.
  intros Od Np Hp Sf. induction fs as [|f fs IH]; intros K is Sh; inversion Sh as [|? i ? is0 Si Sq]; subst.
  - exists [], []. repeat split; constructor.
  - cbn [run_fns map]. destruct (K f (or_introl eq_refl)) as (V & O & Sm).
    rewrite (run_shaped _ m f i p Si).
    destruct (run_ok s f m p (initialize f) V O Od Np Hp Sm Sf (shaped_init f)) as (i' & vs & -> & S1 & V1).
    destruct (IH (fun g Hg => K g (or_intror Hg)) is0 Sq) as (is' & cols & -> & -> & S2 & V2).
    do 2 eexists. split; [reflexivity|]. split; [reflexivity|]. split; constructor; assumption.
Qed.
Lemma columns_fst p cols : map fst (with_columns p cols) = p.
Proof.
  unfold with_columns. rewrite map_map. cbn [fst]. generalize O. induction p as [|x l IH]; intros a; [reflexivity|]. cbn. now rewrite IH.
Qed.
Lemma columns_nth p cols n vs : nth_error cols n = Some vs -> length vs = length p -> map (fun x => nth n (snd x) None) (with_columns p cols) = vs.
Proof.
  intros E L. unfold with_columns. rewrite map_map. cbn [snd].
  rewrite (map_ext _ (fun q : nat * row => nth (fst q) vs None)).
  2:{ intros q. rewrite (nth_indep _ None (nth (fst q) (@nil (option wval)) None)).
      - rewrite (map_nth (fun vs => nth (fst q) vs None) cols [] n). f_equal. apply nth_error_nth. exact E.
      - rewrite map_length. apply nth_error_Some. congruence. }
  rewrite <- (map_map fst (fun i => nth i vs None)).
  assert (map fst (combine (seq 0 (length p)) p) = seq 0 (length p)) as ->.
  { generalize O. clear. induction p as [|x l IH]; intros a; [reflexivity|]. cbn. now rewrite IH. }
  rewrite <- L. clear. change vs with ([] ++ vs) at 1. change O with (length (@nil (option wval))). generalize (@nil (option wval)).
  induction vs as [|v vs IH]; intros pre; [reflexivity|]. cbn [length seq map]. f_equal.
  - rewrite app_nth2 by lia. now rewrite Nat.sub_diag.
  - specialize (IH (pre ++ [v])). rewrite <- app_assoc in IH. rewrite app_length in IH. cbn [length app] in IH.
    replace (length pre + 1)%nat with (S (length pre)) in IH by lia. exact IH.
Qed.
Lemma columns_len p cols : Forall (fun x => length (snd x) = length cols) (with_columns p cols).
Proof. apply Forall_forall. intros x Hx. unfold with_columns in Hx. apply in_map_iff in Hx. destruct Hx as (q & <- & _). cbn. apply map_length. Qed.

Definition ans (s : wspec) (m : mode) (fs : list wfn) (p : list row) : list orow :=
  match process_one_partition (s_order s) m fs (map initialize fs) p with Some (_, o) => o | None => [] end.
Lemma process_ok s m fs p : in_order (s_order s) p -> p <> [] -> size p < 2 ^ 31 -> small_frame s p ->
  (forall f, In f fs -> check_valid f s = true /\ own_frame s f m /\ small_fn f p) ->
  partition_ok s fs p (ans s m fs p) /\
  forall is, Forall2 shaped fs is -> exists is', process_one_partition (s_order s) m fs is p = Some (is', ans s m fs p) /\ Forall2 shaped fs is'.
Proof.
  intros Od Np Hp Sf K.
  assert (Forall2 shaped fs (map initialize fs)) as S0 by (clear; induction fs; constructor; [apply shaped_init|assumption]).
  split.
  - unfold ans, process_one_partition. destruct p as [|x l]; [congruence|].
    destruct (run_fns_ok s m fs _ Od Np Hp Sf K _ S0) as (is' & cols & -> & _ & _ & V).
    split; [apply columns_fst|]. assert (length cols = length fs) as Lc by (clear - V; induction V; cbn; congruence).
    split; [rewrite <- Lc; apply columns_len|].
    intros n f E. assert (exists vs, nth_error cols n = Some vs /\ values_ok s f (x :: l) vs) as (vs & E' & Vs).
    { clear - V E. revert n E. induction V as [|g vs fs cols G V IH]; intros [|n] E; try discriminate.
      - injection E as <-. exists vs. auto.
      - apply (IH n E). }
    rewrite (columns_nth _ _ n vs E' (proj1 Vs)). exact Vs.
  - intros is Sh. unfold ans, process_one_partition. destruct p as [|x l]; [congruence|].
    destruct (run_fns_ok s m fs _ Od Np Hp Sf K is Sh) as (is' & cols & E1 & E2 & S2 & _).
    rewrite E1, E2. exists is'. auto.
Qed.

(* ---- runs of rows of the same partition ---- *)
Section Runs.
Variable gs : groups.
Notation same := (same_group gs).
Definition allsame (l : list row) : Prop := forall x y, In x l -> In y l -> same x y = true.
Definition cut (cur rest : list row) : Prop := match rest with [] => True | h :: _ => forall x, In x cur -> same x h = false end.

Fixpoint runs (rows : list row) : list (list row) :=
  match rows with
  | [] => []
  | r :: q => match runs q with
              | (x :: g) :: gs' => if same r x then (r :: x :: g) :: gs' else [r] :: (x :: g) :: gs'
              | _ => [[r]]
              end
  end.
Lemma runs_nonempty rows : Forall (fun g => g <> []) (runs rows).
Proof.
  induction rows as [|r q IH]; [constructor|]. cbn [runs].
  destruct (runs q) as [|[|x g] gs']; try (repeat constructor; discriminate).
  inversion IH; subst. destruct (same r x); repeat constructor; try discriminate; assumption.
Qed.
Lemma runs_concat rows : concat (runs rows) = rows.
Proof.
  induction rows as [|r q IH]; [reflexivity|]. cbn [runs]. pose proof (runs_nonempty q) as N.
  destruct (runs q) as [|[|x g] gs'].
  - cbn in *. now rewrite <- IH.
  - inversion N; congruence.
  - destruct (same r x); cbn in *; now rewrite IH.
Qed.
Lemma runs_head r q g gs' : runs (r :: q) = g :: gs' -> exists g', g = r :: g'.
Proof.
  cbn [runs]. destruct (runs q) as [|[|x h] hs]; intros E; try (injection E as <- <-; eauto).
  destruct (same r x); injection E as <- <-; eauto.
Qed.
Lemma runs_cut cur rest : cur <> [] -> allsame cur -> cut cur rest -> runs (cur ++ rest) = cur :: runs rest.
Proof.
  induction cur as [|r cur IH]; intros N A C; [congruence|]. cbn [app runs]. destruct cur as [|x cur].
  - cbn [app]. destruct rest as [|h rest]; [reflexivity|]. destruct (runs (h :: rest)) as [|g gs'] eqn:E.
    + pose proof (runs_concat (h :: rest)) as K. rewrite E in K. discriminate.
    + destruct (runs_head _ _ _ _ E) as (g' & ->). now rewrite (C r (or_introl eq_refl)).
  - rewrite IH.
    + now rewrite (A r x (or_introl eq_refl) (or_intror (or_introl eq_refl))).
    + discriminate.
    + intros y z Hy Hz. apply A; now right.
    + destruct rest as [|h rest]; [exact Logic.I|]. intros y Hy. apply C. now right.
Qed.
Lemma runs_inv rows : rows <> [] -> exists cur rest, rows = cur ++ rest /\ cur <> [] /\ allsame cur /\ cut cur rest.
Proof.
  induction rows as [|r q IH]; intros N; [congruence|]. destruct q as [|x q].
  - exists [r], []. split; [reflexivity|]. split; [discriminate|]. split; [|exact Logic.I].
    intros y z [<-|[]] [<-|[]]. apply same_group_refl.
  - destruct (IH ltac:(discriminate)) as (cur & rest & E & Nc & A & C). destruct cur as [|y cur]; [congruence|].
    injection E as <- E. destruct (same r x) eqn:Sx.
    + exists (r :: x :: cur), rest. split; [now rewrite E|]. split; [discriminate|].
      assert (forall z, In z (x :: cur) -> same r z = true) as T.
      { intros z Hz. apply same_group_trans with x; [exact Sx|]. apply A; [now left|exact Hz]. }
      split.
      * intros y z [<-|Hy] [<-|Hz]; [apply same_group_refl|now apply T|rewrite same_group_sym; now apply T|now apply A].
      * destruct rest as [|h rest]; [exact Logic.I|]. intros y [<-|Hy]; [|now apply C].
        destruct (same r h) eqn:Sh; [|reflexivity]. rewrite <- (C x (or_introl eq_refl)). symmetry.
        apply same_group_trans with r; [rewrite same_group_sym; exact Sx|exact Sh].
    + exists [r], (x :: q). split; [reflexivity|]. split; [discriminate|]. split.
      * intros y z [<-|[]] [<-|[]]. apply same_group_refl.
      * intros y [<-|[]]. exact Sx.
Qed.
Lemma together_sub a m c : together gs (a ++ m ++ c) -> together gs m.
Proof.
  intros T x1 x b y c1 -> Sx z Hz. apply (T (a ++ x1) x b y (c1 ++ c)); [|exact Sx|exact Hz].
  now rewrite <- !app_assoc, <- !app_comm_cons, <- !app_assoc.
Qed.
Lemma together_suffix a m : together gs (a ++ m) -> together gs m.
Proof. intros T. apply (together_sub a m []). now rewrite app_nil_r. Qed.
Lemma together_prefix m c : together gs (m ++ c) -> together gs m.
Proof. intros T. apply (together_sub [] m c). exact T. Qed.
Lemma cut_all cur rest : cur <> [] -> together gs (cur ++ rest) -> cut cur rest -> forall x z, In x cur -> In z rest -> same x z = false.
Proof.
  intros Nc T C x z Hx Hz. destruct rest as [|h rest]; [destruct Hz|]. cbn in C.
  destruct Hz as [<-|Hz]; [now apply C|]. destruct (same x z) eqn:E; [|reflexivity]. exfalso.
  apply in_split in Hx. destruct Hx as (a & b & ->). apply in_split in Hz. destruct Hz as (d & e & ->).
  assert (same x h = true) as K.
  { apply (T a x (b ++ h :: d) z e); [|exact E|apply in_app_iff; right; now left].
    rewrite <- !app_assoc. reflexivity. }
  rewrite C in K; [discriminate|]. apply in_app_iff. right. now left.
Qed.
Lemma runs_partitions rows : together gs rows -> partitions gs rows (runs rows).
Proof.
  intros T. split; [apply runs_concat|]. split; [apply runs_nonempty|].
  remember (length rows) as n eqn:En. revert rows En T. induction n as [n IH] using lt_wf_ind. intros rows En T.
  destruct rows as [|r q]; [constructor|].
  destruct (runs_inv (r :: q) ltac:(discriminate)) as (cur & rest & E & Nc & A & C). rewrite E in *. clear E r q.
  rewrite (runs_cut cur rest Nc A C).
  assert (forall l x, (forall y, In y l -> same x y = true) -> filter (same x) l = l) as FT.
  { clear. induction l as [|y l IH]; intros x K; [reflexivity|]. cbn. rewrite (K y (or_introl eq_refl)). f_equal. apply IH. intros z Hz. apply K. now right. }
  constructor.
  - intros x Hx. rewrite filter_app. rewrite (filter_none (same x) rest), app_nil_r.
    + symmetry. apply FT. intros y Hy. now apply A.
    + intros y Hy. now apply (cut_all cur rest Nc T C).
  - assert (Forall (fun p => forall r, In r p -> p = filter (same r) rest) (runs rest)) as K.
    { apply (IH (length rest)); [|reflexivity|apply together_suffix with cur; exact T].
      rewrite En, app_length. destruct cur; [congruence|cbn; lia]. }
    rewrite Forall_forall in *. intros p Hp r Hr. rewrite filter_app, (filter_none (same r) cur).
    + apply K; assumption.
    + intros y Hy. rewrite same_group_sym. apply (cut_all cur rest Nc T C); [exact Hy|].
      rewrite <- (runs_concat rest). apply in_concat. eauto.
Qed.

(* ---- split_into_partitions ---- *)
Fixpoint ends (a : nat) (l : list (list row)) : list nat :=
  match l with [] => [] | g :: q => (a + length g)%nat :: ends (a + length g) q end.
Lemma ends_length a l : length (ends a l) = length l.
Proof. revert a. induction l as [|g l IH]; intros a; cbn; [reflexivity|]. now rewrite IH. Qed.

Lemma key_same_eqb r r' k k' : groupable gs r -> groupable gs r' -> group_key gs r = Some k -> group_key gs r' = Some k' -> key_eqb k' k = same r r'.
Proof.
  intros G G' E E'. rewrite <- (key_same gs r r' k G G' E). unfold haskey. rewrite E'. unfold key_eqb.
  destruct (list_eq_dec Z.eq_dec k' k) as [->|N].
  - symmetry. now apply KV.beqb_eq.
  - symmetry. apply not_true_iff_false. intros K. apply KV.beqb_eq in K. congruence.
Qed.
Lemma offsets_ok q : Forall (groupable gs) q -> forall i r k, groupable gs r -> group_key gs r = Some k ->
  exists o, offsets gs (S i) k q = Some o /\ o = ends i (runs (r :: q)).
Proof.
  induction q as [|x q IH]; intros Gq i r k Gr Ek; cbn [offsets].
  - exists [S i]. split; [reflexivity|]. cbn. f_equal. lia.
  - inversion Gq as [|? ? Gx Gq']; subst. destruct (key_exists gs x Gx) as (kx & Ex). rewrite Ex.
    rewrite (key_same_eqb r x k kx Gr Gx Ek Ex).
    destruct (runs_inv (x :: q) ltac:(discriminate)) as (cur & rest & E & Nc & A & C). destruct cur as [|y cur]; [congruence|]. injection E as <- E.
    pose proof (runs_cut (x :: cur) rest Nc A C) as Rc. cbn [app] in Rc. rewrite <- E in Rc.
    destruct (same r x) eqn:Sx.
    + destruct (IH Gq' (S i) r k Gr Ek) as (o & -> & ->). exists (ends (S i) (runs (r :: q))). split; [reflexivity|].
      assert (runs (r :: x :: q) = (r :: x :: cur) :: runs rest) as ->.
      { change (r :: x :: q) with (r :: (x :: q)). cbn [runs] in *. rewrite Rc. now rewrite Sx. }
      assert (runs (r :: q) = (r :: cur) :: runs rest) as ->.
      { rewrite E. apply (runs_cut (r :: cur) rest); [discriminate| |].
        - intros y z Hy Hz.
          assert (forall w, In w (r :: cur) -> same x w = true) as T.
          { intros w [<-|Hw]; [rewrite same_group_sym; exact Sx|apply A; [now left|now right]]. }
          apply same_group_trans with x; [rewrite same_group_sym; now apply T|now apply T].
        - destruct rest as [|h rest]; [exact Logic.I|]. intros y [<-|Hy]; [|apply C; now right].
          destruct (same r h) eqn:Sh; [|reflexivity]. rewrite <- (C x (or_introl eq_refl)). symmetry.
          apply same_group_trans with r; [rewrite same_group_sym; exact Sx|exact Sh]. }
      cbn [ends length]. f_equal; [lia|]. f_equal. lia.
    + destruct (IH Gq' (S i) x kx Gx Ex) as (o & -> & ->). cbn [option_map]. eexists. split; [reflexivity|].
      assert (runs (r :: x :: q) = [r] :: runs (x :: q)) as ->.
      { change (r :: x :: q) with ([r] ++ (x :: q)). apply runs_cut; [discriminate| |].
        - intros y z [<-|[]] [<-|[]]. apply same_group_refl.
        - intros y [<-|[]]. exact Sx. }
      cbn [ends length]. replace (i + 1)%nat with (S i) by lia. reflexivity.
Qed.

Definition key_of_last (l : list row) (lastk : option (list Z)) : Prop :=
  gs = [] \/ exists a r, l = a ++ [r] /\ lastk = group_key gs r.
Lemma last_snoc (r : row) q : exists a, r :: q = a ++ [last q r].
Proof.
  revert r. induction q as [|x q IH]; intros r; [exists []; reflexivity|].
  destruct (IH x) as (a & E). exists (r :: a).
  assert (forall d, last (x :: q) d = last q x) as K.
  { clear. revert x. induction q as [|y q IH]; intros x d; [reflexivity|]. change (last (x :: y :: q) d) with (last (y :: q) d). rewrite IH. symmetry. apply IH. }
  rewrite K. cbn [app]. now rewrite <- E.
Qed.
Lemma split_ok lastk r q : Forall (groupable gs) (r :: q) -> together gs (r :: q) ->
  exists lastk' belongs, split_into_partitions gs lastk (r :: q) = Some (ends 0 (runs (r :: q)), lastk', belongs) /\
    key_of_last (r :: q) lastk' /\
    (forall prev, groupable gs prev -> (gs = [] \/ lastk = group_key gs prev) -> belongs = same prev r).
Proof.
  intros G T. unfold split_into_partitions. destruct gs as [|g0 gs0] eqn:Eg.
  - exists lastk, true. assert (runs (r :: q) = [r :: q]) as ->.
    { rewrite <- (app_nil_r (r :: q)) at 1. rewrite <- Eg in *. apply runs_cut; [discriminate| |exact Logic.I]. intros x y _ _. rewrite Eg. reflexivity. }
    split; [reflexivity|]. split; [now left|]. intros. reflexivity.
  - assert (gs <> []) as Ng by (rewrite Eg; discriminate). rewrite <- Eg in *. clear Eg g0 gs0.
    inversion G as [|? ? Gr Gq]; subst. destruct (last_snoc r q) as (a & Ea).
    assert (In (last q r) (r :: q)) as Hl by (rewrite Ea; apply in_app_iff; right; now left).
    assert (groupable gs (last q r)) as Gl by (rewrite Forall_forall in G; now apply G).
    destruct (key_exists gs r Gr) as (k & Ek). destruct (key_exists gs _ Gl) as (kl & El). rewrite Ek, El. cbv zeta.
    assert (forall prev, groupable gs prev -> (gs = [] \/ lastk = group_key gs prev) ->
      (match lastk with None => false | Some k0 => key_eqb k k0 end) = same prev r) as B.
    { intros prev Gp [X|K]; [congruence|]. destruct (key_exists gs prev Gp) as (kp & Ep). rewrite K, Ep.
      apply (key_same_eqb prev r kp k Gp Gr Ep Ek). }
    assert (key_of_last (r :: q) (Some kl)) as KL by (right; exists a, (last q r); auto).
    rewrite (key_same_eqb (last q r) r kl k Gl Gr El Ek). destruct (same (last q r) r) eqn:Sl.
    + do 2 eexists. split; [|split; [exact KL|exact B]].
      assert (runs (r :: q) = [r :: q]) as ->; [|reflexivity].
      rewrite <- (app_nil_r (r :: q)) at 1. apply runs_cut; [discriminate| |exact Logic.I].
      assert (forall z, In z (r :: q) -> same r z = true) as K.
      { intros z Hz. destruct a as [|a0 a].
        - cbn in Ea. injection Ea as _ Eq0. subst q. destruct Hz as [<-|[]]. apply same_group_refl.
        - cbn in Ea. injection Ea as <- Ea. destruct Hz as [<-|Hz]; [apply same_group_refl|].
          rewrite Ea in Hz. apply in_app_iff in Hz. destruct Hz as [Hz|[<-|[]]]; [|rewrite same_group_sym; exact Sl].
          apply (T [] r a (last q r) []); [cbn; now rewrite <- Ea|rewrite same_group_sym; exact Sl|exact Hz]. }
      intros y z Hy Hz. apply same_group_trans with r; [rewrite same_group_sym; now apply K|now apply K].
    + destruct (offsets_ok q Gq 0 r k Gr Ek) as (o & -> & ->). cbn [option_map].
      do 2 eexists. split; [reflexivity|]. split; [exact KL|exact B].
Qed.
End Runs.
