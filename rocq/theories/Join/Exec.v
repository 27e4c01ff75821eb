(* The iterators deliver their list of rows, cut into batches and by the limit. *)
From Coq Require Import List ZArith Bool Arith Lia.
From Verif Require Import Common.Bytes Join.Model Join.Spec.
Import ListNotations.

Lemma skipn_nil_length {A} (l : list A) n : length l <= n -> skipn n l = [].
Proof. apply skipn_all2. Qed.

Section Iter.
Variables (n : nat) (oids iids : list nat) (jt : jtype) (cs : list jcond) (limit : option nat) (cap : nat).

Let res := result_row n oids iids.
Let nul := null_row n oids.
Let sat o i := is_satisfy_filter cs (res o i).

Definition lim (cnt : nat) (l : list row) : list row := match limit with Some k => firstn (k - cnt) l | None => l end.
Definition fitting (cnt : nat) (e : list row) : Prop := match limit with Some k => e = [] \/ cnt + length e <= k | None => True end.

Lemma fitting_nil cnt : fitting cnt [].
Proof. unfold fitting. destruct limit; auto. Qed.
Lemma fitting_app cnt e e' : fitting cnt e -> fitting (cnt + length e) e' -> fitting cnt (e ++ e').
Proof.
  unfold fitting. destruct limit as [k|]; [|auto]. rewrite app_length. intros [->|A] [->|B]; cbn [app length] in *; try (left; reflexivity).
  - right. lia.
  - rewrite app_nil_r. right. lia.
  - right. lia.
Qed.
Lemma lim_app cnt e x : fitting cnt e -> lim cnt (e ++ x) = e ++ lim (cnt + length e) x.
Proof.
  unfold fitting, lim. destruct limit as [k|]; [|auto]. intros [->|A]; cbn [app length]; [now rewrite Nat.add_0_r|].
  rewrite firstn_app, firstn_all2 by lia. f_equal. f_equal. lia.
Qed.
Lemma lim_full cnt e : fitting cnt e -> lim cnt e = e.
Proof. intros F. pose proof (lim_app cnt e [] F) as E. rewrite app_nil_r in E. rewrite E. unfold lim. destruct limit; rewrite ?firstn_nil, app_nil_r; reflexivity. Qed.
Lemma lim_reached cnt l : reached_limit limit cnt = true -> lim cnt l = [].
Proof. unfold reached_limit, lim. destruct limit as [k|]; [|discriminate]. intros E. apply Nat.leb_le in E. replace (k - cnt) with 0 by lia. reflexivity. Qed.
Lemma fitting_one cnt x : reached_limit limit cnt = false -> fitting cnt [x].
Proof. unfold reached_limit, fitting. destruct limit as [k|]; [|auto]. intros E. apply Nat.leb_gt in E. right. cbn. lia. Qed.

(* the outcome of working off the rows [all] *)
Definition good {A} (left : A -> list row) (b : list row) (cnt : nat) (all : list row) (p : progress A) : Prop :=
  match p with
  | Used b' cnt' _ => b' = b ++ all /\ cnt' = cnt + length all /\ fitting cnt all
  | Limit b' => exists e r, all = e ++ r /\ b' = b ++ e /\ fitting cnt e /\ reached_limit limit (cnt + length e) = true
  | Full b' cnt' r => exists e, all = e ++ left r /\ b' = b ++ e /\ cnt' = cnt + length e /\ fitting cnt e /\ cap <= length b'
  end.

Lemma good_cons {A} (left : A -> list row) b cnt e all p :
  fitting cnt e -> good left (b ++ e) (cnt + length e) all p -> good left b cnt (e ++ all) p.
Proof.
  intros F. destruct p as [b' cnt' m|b'|b' cnt' r]; cbn.
  - intros (-> & -> & F'). rewrite <- app_assoc, app_length. repeat split; [lia|]. apply fitting_app; assumption.
  - intros (x & r & -> & -> & F' & C). exists (e ++ x), r. rewrite <- !app_assoc, app_length, Nat.add_assoc. repeat split; [|exact C].
    apply fitting_app; assumption.
  - intros (x & -> & -> & -> & F' & C). exists (e ++ x). rewrite <- !app_assoc in *. rewrite app_length. repeat split; [lia| |exact C].
    apply fitting_app; assumption.
Qed.

(* ---- hash inner join ---- *)

Definition matches (i : row) (ms : list row) : list row := map (fun o => res o i) (filter (fun o => sat o i) ms).

Lemma construct_inner b o i : jt = JInner \/ jt = JFull ->
  construct_result_batch n oids iids jt cs true b o i false = (b ++ (if sat o i then [res o i] else []), sat o i).
Proof.
  intros J. unfold construct_result_batch. fold (res o i). fold (sat o i). destruct (sat o i); [reflexivity|].
  rewrite app_nil_r. destruct J as [->| ->]; reflexivity.
Qed.

Lemma inner_bucket_good (J : jt = JInner \/ jt = JFull) i all : forall ms idx b cnt, ms = skipn idx all ->
  good (fun k => matches i (skipn k all)) b cnt (matches i ms) (inner_bucket n oids iids jt cs limit cap i ms idx b cnt).
Proof.
  induction ms as [|m q IH]; intros idx b cnt E; cbn [inner_bucket].
  - cbn. rewrite app_nil_r, Nat.add_0_r. repeat split. apply fitting_nil.
  - assert (Eq : q = skipn (S idx) all).
    { change (q = skipn (1 + idx) all). rewrite Nat.add_comm. clear -E. revert all E. induction idx; intros all E.
      - cbn in *. now subst.
      - destruct all; [discriminate|]. cbn [Nat.add skipn] in *. auto. }
    destruct (reached_limit limit cnt) eqn:RL; [exists [], (matches i (m :: q)); cbn [length app]; rewrite app_nil_r, Nat.add_0_r; repeat split; [apply fitting_nil|exact RL]|].
    destruct (is_full cap b) eqn:FL.
    { cbn. exists []. rewrite app_nil_r. cbn. rewrite Nat.add_0_r. repeat split; [rewrite <- E; reflexivity|apply fitting_nil|apply Nat.leb_le; exact FL]. }
    rewrite construct_inner by exact J.
    change (matches i (m :: q)) with ((map (fun o => res o i) (if sat m i then m :: filter (fun o => sat o i) q else filter (fun o => sat o i) q))).
    destruct (sat m i).
    + cbn [map]. change (res m i :: map (fun o => res o i) (filter (fun o => sat o i) q)) with ([res m i] ++ matches i q).
      apply good_cons; [apply fitting_one; exact RL|]. rewrite Nat.add_1_r. apply IH. exact Eq.
    + rewrite app_nil_r. apply IH. exact Eq.
Qed.

Definition all_matches (seek : row -> list row) (is : list row) : list row := flat_map (fun i => matches i (seek i)) is.
Definition left_matches (seek : row -> list row) (is : list row) (idx : nat) : list row :=
  match is with [] => [] | i :: q => matches i (skipn idx (seek i)) ++ all_matches seek q end.
Lemma left_matches_0 seek is : left_matches seek is 0 = all_matches seek is.
Proof. destruct is; reflexivity. Qed.

Lemma inner_rows_good (J : jt = JInner \/ jt = JFull) seek : forall is idx b cnt,
  good (fun s => left_matches seek (fst s) (snd s)) b cnt (left_matches seek is idx) (inner_rows n oids iids jt cs limit cap seek is idx b cnt).
Proof.
  induction is as [|i q IH]; intros idx b cnt; cbn [inner_rows left_matches].
  - cbn. rewrite app_nil_r, Nat.add_0_r. repeat split. apply fitting_nil.
  - pose proof (inner_bucket_good J i (seek i) (skipn idx (seek i)) idx b cnt eq_refl) as G.
    destruct (inner_bucket n oids iids jt cs limit cap i (skipn idx (seek i)) idx b cnt) as [b' cnt' m|b'|b' cnt' r]; cbn in G.
    + destruct G as (-> & -> & F). apply good_cons; [exact F|]. rewrite <- left_matches_0. apply IH.
    + destruct G as (e & r & E & -> & F & C). exists e, (r ++ all_matches seek q). rewrite E, <- app_assoc. auto.
    + destruct G as (e & E & -> & -> & F & C). cbn. exists e. rewrite E, <- app_assoc. auto.
Qed.

(* the answer of a call: the batch, eos, and the state whose rows are still to come *)
Definition answer {A} (todo : A -> list row) (count : A -> nat) (b : list row) (cnt : nat) (all : list row) (r : list row * bool * A) : Prop :=
  let '(b', eos, s') := r in
  if eos then b' = b ++ lim cnt all
  else exists e, all = e ++ todo s' /\ b' = b ++ e /\ count s' = cnt + length e /\ fitting cnt e /\ cap <= length b'.
Lemma answer_cons {A} (todo : A -> list row) count b cnt e all r :
  fitting cnt e -> answer todo count (b ++ e) (cnt + length e) all r -> answer todo count b cnt (e ++ all) r.
Proof.
  intros F. destruct r as [[b' []] s']; cbn.
  - intros ->. now rewrite lim_app, app_assoc.
  - intros (x & -> & -> & -> & F' & C). exists (e ++ x). rewrite <- !app_assoc in *. rewrite app_length. repeat split; [lia| |exact C].
    apply fitting_app; assumption.
Qed.
Lemma lim_limit cnt e r x : fitting cnt e -> reached_limit limit (cnt + length e) = true -> lim cnt ((e ++ r) ++ x) = e.
Proof. intros F C. rewrite <- app_assoc, lim_app by exact F. rewrite lim_reached by exact C. apply app_nil_r. Qed.

Definition inner_todo (seek : row -> list row) (s : list row * nat * list (list row) * nat) : list row :=
  let '(cur, idx, bs, _) := s in left_matches seek cur idx ++ all_matches seek (concat bs).

Lemma hash_inner_answer (J : jt = JInner \/ jt = JFull) seek : forall bs cur idx b cnt,
  answer (inner_todo seek) snd b cnt (inner_todo seek (cur, idx, bs, cnt)) (hash_inner n oids iids jt cs limit cap seek cur idx bs b cnt).
Proof.
  induction bs as [|x bs IH]; intros cur idx b cnt; cbn [hash_inner inner_todo];
    pose proof (inner_rows_good J seek cur idx b cnt) as G;
    destruct (inner_rows n oids iids jt cs limit cap seek cur idx b cnt) as [b' cnt' m|b'|b' cnt' [cur' idx']]; cbn in G.
  - destruct G as (-> & -> & F). cbn. now rewrite app_nil_r, lim_full.
  - destruct G as (e & r & E & -> & F & C). cbn [answer]. rewrite E, lim_limit by assumption. reflexivity.
  - destruct G as (e & E & -> & -> & F & C). cbn. exists e. rewrite E, <- app_assoc. auto.
  - destruct G as (-> & -> & F). apply answer_cons; [exact F|].
    replace (all_matches seek (concat (x :: bs))) with (inner_todo seek (x, 0, bs, cnt + length (left_matches seek cur idx))).
    + apply IH.
    + cbn [inner_todo concat]. rewrite left_matches_0. unfold all_matches. now rewrite flat_map_app.
  - destruct G as (e & r & E & -> & F & C). cbn [answer]. rewrite E, lim_limit by assumption. reflexivity.
  - destruct G as (e & E & -> & -> & F & C). cbn. exists e. rewrite E, <- app_assoc. auto.
Qed.

(* ---- hash outer join ---- *)

Definition padded (o : row) (ms : list row) : list row := map (fun i => if sat o i then res o i else nul o) ms.

Lemma outer_bucket_good (J : jt = JLeft \/ jt = JRight) o all : forall ms idx b cnt, ms = skipn idx all ->
  good (fun k => padded o (skipn k all)) b cnt (padded o ms) (outer_bucket n oids iids jt cs limit cap o ms idx b cnt).
Proof.
  induction ms as [|m q IH]; intros idx b cnt E; cbn [outer_bucket].
  - cbn. rewrite app_nil_r, Nat.add_0_r. repeat split. apply fitting_nil.
  - assert (Eq : q = skipn (S idx) all).
    { change (q = skipn (1 + idx) all). rewrite Nat.add_comm. clear -E. revert all E. induction idx; intros all E.
      - cbn in *. now subst.
      - destruct all; [discriminate|]. cbn [Nat.add skipn] in *. auto. }
    destruct (reached_limit limit cnt) eqn:RL.
    { exists [], (padded o (m :: q)). cbn [length app]. rewrite app_nil_r, Nat.add_0_r. repeat split; [apply fitting_nil|exact RL]. }
    destruct (is_full cap b) eqn:FL.
    { cbn. exists []. rewrite app_nil_r. cbn. rewrite Nat.add_0_r. repeat split; [rewrite <- E; reflexivity|apply fitting_nil|apply Nat.leb_le; exact FL]. }
    replace (fst (construct_result_batch n oids iids jt cs true b o m false)) with (b ++ [if sat o m then res o m else nul o]).
    2:{ unfold construct_result_batch. fold (res o m). fold (sat o m). destruct (sat o m); [reflexivity|]. destruct J as [->| ->]; reflexivity. }
    change (padded o (m :: q)) with ([if sat o m then res o m else nul o] ++ padded o q).
    apply good_cons; [apply fitting_one; exact RL|]. rewrite Nat.add_1_r. apply IH. exact Eq.
Qed.

Definition padded_row (seek : row -> list row) (o : row) : list row := match seek o with [] => [nul o] | ms => padded o ms end.
Definition outer_todo (seek : row -> list row) (s : list row * nat * nat) : list row :=
  let '(os, idx, _) := s in
  match os with
  | [] => []
  | o :: q => match seek o with [] => [nul o] | ms => padded o (skipn idx ms) end ++ flat_map (padded_row seek) q
  end.
Lemma outer_todo_0 seek os cnt : outer_todo seek (os, 0, cnt) = flat_map (padded_row seek) os.
Proof. destruct os as [|o q]; [reflexivity|]. cbn. unfold padded_row at 2. destruct (seek o); reflexivity. Qed.

Lemma hash_outer_answer (J : jt = JLeft \/ jt = JRight) seek : forall os idx b cnt,
  answer (outer_todo seek) snd b cnt (outer_todo seek (os, idx, cnt)) (hash_outer n oids iids jt cs limit cap seek os idx b cnt).
Proof.
  induction os as [|o q IH]; intros idx b cnt; cbn [hash_outer outer_todo].
  - cbn. rewrite lim_full by apply fitting_nil. now rewrite app_nil_r.
  - destruct (seek o) as [|m ms] eqn:E.
    + destruct (reached_limit limit cnt) eqn:RL; [cbn; rewrite lim_reached by exact RL; now rewrite app_nil_r|].
      destruct (is_full cap b) eqn:FL.
      { cbn. exists []. rewrite E. cbn. rewrite app_nil_r, Nat.add_0_r. repeat split; [apply fitting_nil|apply Nat.leb_le; exact FL]. }
      apply answer_cons; [apply fitting_one; exact RL|]. rewrite <- (outer_todo_0 seek q (cnt + length [nul o])). cbn [length]. rewrite Nat.add_1_r. apply IH.
    + pose proof (outer_bucket_good J o (m :: ms) (skipn idx (m :: ms)) idx b cnt eq_refl) as G.
      destruct (outer_bucket n oids iids jt cs limit cap o (skipn idx (m :: ms)) idx b cnt) as [b' cnt' x|b'|b' cnt' r]; cbn in G.
      * destruct G as (-> & -> & F). apply answer_cons; [exact F|]. rewrite <- (outer_todo_0 seek q (cnt + length (padded o (skipn idx (m :: ms))))). apply IH.
      * destruct G as (e & r & E' & -> & F & C). cbn [answer]. rewrite E', lim_limit by assumption. reflexivity.
      * destruct G as (e & E' & -> & -> & F & C). cbn. exists e. rewrite E, E', <- app_assoc. auto.
Qed.

(* ---- nested loops, without a limit ---- *)

Definition pairs (o : row) (is : list row) : list row := map (res o) (filter (sat o) is).

Lemma construct_nested b o i m : construct_result_batch n oids iids jt cs false b o i m = (b ++ (if sat o i then [res o i] else []), sat o i || m).
Proof.
  unfold construct_result_batch. fold (res o i). fold (sat o i). destruct (sat o i); [reflexivity|]. rewrite app_nil_r. destruct jt; reflexivity.
Qed.
Lemma pairs_cons o i q : pairs o (i :: q) = (if sat o i then [res o i] else []) ++ pairs o q.
Proof. unfold pairs. cbn. destruct (sat o i); reflexivity. Qed.

Hypothesis NL : limit = None.

Lemma nested_inner_good o : forall is b cnt m,
  match nested_inner n oids iids jt cs limit cap o is b cnt m with
  | Used b' _ m' => b' = b ++ pairs o is /\ (m' = true <-> m = true \/ pairs o is <> [])
  | Limit _ => False
  | Full b' _ is' => exists e, pairs o is = e ++ pairs o is' /\ b' = b ++ e /\ cap <= length b'
  end.
Proof.
  induction is as [|i q IH]; intros b cnt m; cbn [nested_inner].
  - cbn. rewrite app_nil_r. split; [reflexivity|]. unfold pairs. cbn. tauto.
  - unfold reached_limit. rewrite NL. destruct (is_full cap b) eqn:FL.
    { exists []. cbn. rewrite app_nil_r. repeat split. apply Nat.leb_le; exact FL. }
    rewrite construct_nested. rewrite pairs_cons.
    set (e := if sat o i then [res o i] else []).
    specialize (IH (b ++ e) (if sat o i || m then S cnt else cnt) (sat o i || m)).
    rewrite NL in IH. destruct (nested_inner n oids iids jt cs None cap o q (b ++ e) (if sat o i || m then S cnt else cnt) (sat o i || m)) as [b' c' m'|b'|b' c' r].
    + destruct IH as [-> Hm]. rewrite app_assoc. split; [reflexivity|]. rewrite Hm, orb_true_iff. subst e. destruct (sat o i); cbn; intuition congruence.
    + exact IH.
    + destruct IH as (x & E & -> & C). exists (e ++ x). rewrite E, !app_assoc. auto.
Qed.

Definition pairs_all (inner : list row) (os : list row) : list row := flat_map (fun o => pairs o inner) os.
Definition nested_todo (inner : list row) (s : list row * list row * nat) : list row :=
  let '(os, is, _) := s in match os with [] => [] | o :: q => pairs o is ++ pairs_all inner q end.
Lemma nested_todo_all inner os cnt : nested_todo inner (os, inner, cnt) = pairs_all inner os.
Proof. destruct os; reflexivity. Qed.

Lemma nested_loop_inner (J : jt = JInner \/ jt = JFull) inner : forall os is b cnt,
  let '(b', eos, s') := nested_loop n oids iids jt cs limit cap inner os is b cnt in
  if eos then b' = b ++ nested_todo inner (os, is, cnt)
  else exists e, nested_todo inner (os, is, cnt) = e ++ nested_todo inner s' /\ b' = b ++ e /\ cap <= length b'.
Proof.
  induction os as [|o q IH]; intros is b cnt; cbn [nested_loop nested_todo].
  - now rewrite app_nil_r.
  - pose proof (nested_inner_good o is b cnt false) as G.
    destruct (nested_inner n oids iids jt cs limit cap o is b cnt false) as [b' c' m'|b'|b' c' r].
    + destruct G as [-> _].
      replace (if m' then nested_loop n oids iids jt cs limit cap inner q inner (b ++ pairs o is) c'
               else match jt with JLeft | JRight => nested_loop n oids iids jt cs limit cap inner q inner ((b ++ pairs o is) ++ [null_row n oids o]) (S c')
                    | _ => nested_loop n oids iids jt cs limit cap inner q inner (b ++ pairs o is) c' end)
        with (nested_loop n oids iids jt cs limit cap inner q inner (b ++ pairs o is) c') by (destruct m', J as [->| ->]; reflexivity).
      specialize (IH inner (b ++ pairs o is) c').
      destruct (nested_loop n oids iids jt cs limit cap inner q inner (b ++ pairs o is) c') as [[b' []] s'].
      * rewrite IH, nested_todo_all, app_assoc. reflexivity.
      * destruct IH as (e & E & -> & C). rewrite nested_todo_all in E. exists (pairs o is ++ e). rewrite E, !app_assoc. auto.
    + destruct G.
    + destruct G as (e & E & -> & C). exists e. cbn. rewrite E, <- app_assoc. auto.
Qed.

Definition pairs_or_null (inner : list row) (o : row) : list row := match pairs o inner with [] => [nul o] | l => l end.

Lemma nested_loop_outer (J : jt = JLeft \/ jt = JRight) inner : forall os b cnt,
  length b + length (flat_map (pairs_or_null inner) os) < cap ->
  let '(b', eos, _) := nested_loop n oids iids jt cs limit cap inner os inner b cnt in
  eos = true /\ b' = b ++ flat_map (pairs_or_null inner) os.
Proof.
  induction os as [|o q IH]; intros b cnt L; cbn [nested_loop flat_map] in *.
  - now rewrite app_nil_r.
  - rewrite app_length in L.
    assert (LP : length (pairs o inner) <= length (pairs_or_null inner o)) by (unfold pairs_or_null; destruct (pairs o inner); cbn; lia).
    pose proof (nested_inner_good o inner b cnt false) as G.
    destruct (nested_inner n oids iids jt cs limit cap o inner b cnt false) as [b' c' m'|b'|b' c' r].
    + destruct G as [-> Hm].
      assert (E : exists c2, (if m' then nested_loop n oids iids jt cs limit cap inner q inner (b ++ pairs o inner) c'
               else match jt with JLeft | JRight => nested_loop n oids iids jt cs limit cap inner q inner ((b ++ pairs o inner) ++ [null_row n oids o]) (S c')
                    | _ => nested_loop n oids iids jt cs limit cap inner q inner (b ++ pairs o inner) c' end)
        = nested_loop n oids iids jt cs limit cap inner q inner (b ++ pairs_or_null inner o) c2).
      { destruct m'.
        - exists c'. unfold pairs_or_null. destruct (pairs o inner) eqn:E; [|reflexivity]. destruct (proj1 Hm eq_refl) as [X|X]; [discriminate|now destruct X].
        - exists (S c'). unfold pairs_or_null. destruct (pairs o inner) eqn:E; [|exfalso; assert (false = true) by (apply Hm; right; discriminate); discriminate].
          rewrite app_nil_r. destruct J as [->| ->]; reflexivity. }
      destruct E as [c2 ->]. specialize (IH (b ++ pairs_or_null inner o) c2).
      destruct (nested_loop n oids iids jt cs limit cap inner q inner (b ++ pairs_or_null inner o) c2) as [[b' eos] s'].
      rewrite app_length in IH. rewrite app_assoc. apply IH. lia.
    + destruct G.
    + exfalso. destruct G as (e & E & -> & C). rewrite E, !app_length in *. lia.
Qed.
End Iter.

(* ---- calling get_next until eos ---- *)

Lemma drain_all J (todo : jstate -> list row) :
  (forall cap s b eos s', get_next J cap s = (b, eos, s') ->
     if eos then b = todo s else todo s = b ++ todo s' /\ cap <= length b) ->
  forall caps s acc, enough caps (length (todo s)) -> drain J caps s acc = Some (acc ++ todo s).
Proof.
  intros G. induction caps as [|c q IH]; intros s acc [L F]; [cbn in L; lia|]. inversion F; subst.
  cbn [drain]. destruct (get_next J c s) as [[b eos] s'] eqn:E. apply G in E. destruct eos; [now subst|].
  destruct E as [E C]. rewrite E, app_assoc. apply IH. split; [|assumption]. cbn [length] in L. rewrite E, app_length in L. lia.
Qed.
