(* What the iterators of the apply node give, call by call. *)
From Coq Require Import List ZArith Bool Arith Lia Sorting.Permutation.
From Verif Require Import Common.Bytes Common.KV Key.Model Join.Model Join.Spec Join.Keys Join.Exec Join.Rows Subquery.ApplyModel.
Import ListNotations.

Section Node.
Variables (n : nat) (oids iids : list nat) (jt : atype) (cs : list jcond) (limit : option nat) (one_row : bool).
Notation res := (result_row n oids iids).
Notation nul := (null_row n oids).
Definition sat (o i : row) : bool := is_satisfy_filter cs (res o i).

(* the rows for [o] if the rows [is] are to be tried *)
Definition todo_row (o : row) (is : list row) : list row :=
  let ms := map (res o) (filter (sat o) is) in
  match jt with
  | ASemi => firstn 1 ms
  | AAnti => match ms with [] => [nul o] | _ => [] end
  | ALeft => match ms with [] => [nul o] | _ => ms end
  end.
(* the limit is reached after [c] rows *)
Definition stopped (c : nat) : Prop := exists k, limit = Some k /\ (k <= c)%nat.
Lemma reached c : reached_limit limit c = true -> stopped c.
Proof. unfold reached_limit, stopped. destruct limit as [k|]; [|discriminate]. intros E. apply Nat.leb_le in E. eauto. Qed.

(* ---- nested loop ---- *)

Lemma todo_skip o i q : sat o i = false -> todo_row o (i :: q) = todo_row o q.
Proof. intros E. unfold todo_row. cbn [filter]. now rewrite E. Qed.
Lemma todo_match o i q : sat o i = true -> todo_row o (i :: q) = match jt with ASemi => [res o i] | AAnti => [] | ALeft => res o i :: map (res o) (filter (sat o) q) end.
Proof. intros E. unfold todo_row. cbn [filter]. rewrite E. destruct jt; reflexivity. Qed.
(* [is] has been tried up to here without a match *)
Lemma nested_inner_spec cap o : forall is b cnt, (jt = ALeft -> (length is <= 1)%nat) ->
  match nested_inner n oids iids jt cs limit cap o is b cnt false with
  | Used b' cnt' m => exists d, b' = b ++ d /\ cnt' = (cnt + length d)%nat /\
                      todo_row o is = d ++ (if m then [] else match jt with ASemi => [] | _ => [nul o] end)
  | Limit b' => b' = b /\ stopped cnt
  | Full b' cnt' rest => b' = b /\ cnt' = cnt /\ (cap <= length b)%nat /\ rest <> [] /\ todo_row o rest = todo_row o is /\ (jt = ALeft -> (length rest <= 1)%nat)
  end.
Proof.
  induction is as [|i q IH]; intros b cnt Le; cbn [nested_inner].
  - exists []. rewrite app_nil_r, Nat.add_0_r. unfold todo_row. cbn. destruct jt; auto.
  - destruct (reached_limit limit cnt) eqn:RL; [split; [reflexivity|now apply reached]|].
    destruct (is_full cap b) eqn:FU; [apply Nat.leb_le in FU; repeat split; auto; discriminate|].
    assert (LQ : jt = ALeft -> q = []) by (intros J; specialize (Le J); destruct q; [reflexivity|cbn in Le; lia]).
    assert (LQ' : jt = ALeft -> (length q <= 1)%nat) by (intros J; rewrite (LQ J); cbn; lia).
    unfold construct_result_batch. fold (sat o i). destruct (sat o i) eqn:SA.
    + rewrite (todo_match _ _ _ SA). destruct jt eqn:J; cbn [orb].
      * exists [res o i]. cbn. repeat split; auto. lia.
      * exists []. rewrite app_nil_r, Nat.add_0_r. auto.
      * rewrite (LQ eq_refl). cbn [nested_inner]. exists [res o i]. cbn. repeat split; auto. lia.
    + rewrite (todo_skip _ _ _ SA). specialize (IH b cnt LQ').
      destruct jt eqn:J; cbn [orb]; exact IH.
Qed.

Section Nested.
Variable fetch : row -> list row.
Definition nested_todo (os is : list row) : list row :=
  match os with
  | [] => []
  | o :: q => todo_row o (match is with [] => fetch o | _ => is end) ++ flat_map (fun o => todo_row o (fetch o)) q
  end.
Lemma nested_todo_nil os : nested_todo os [] = flat_map (fun o => todo_row o (fetch o)) os.
Proof. destruct os; reflexivity. Qed.
(* the outer rows whose inner rows are still to be fetched *)
Definition unfetched (os is : list row) : list row := match is with [] => os | _ => tl os end.
Definition fitting (o : row) : Prop := one_row = true -> (length (fetch o) <= 1)%nat.

Lemma fetch_some o rows : fetch_checked one_row fetch o = Some rows -> rows = fetch o /\ fitting o.
Proof.
  unfold fetch_checked, fitting. destruct one_row; cbn; [|intros [= <-]; split; [reflexivity|discriminate]].
  destruct (length (fetch o)) as [|[|k]] eqn:E; cbn; [intros [= <-]; split; [reflexivity|lia]..|discriminate].
Qed.
Lemma fetch_none o : fetch_checked one_row fetch o = None -> one_row = true /\ (1 < length (fetch o))%nat.
Proof. unfold fetch_checked. destruct one_row; cbn; [|discriminate]. destruct (length (fetch o)) as [|[|k]] eqn:E; cbn; try discriminate. intros _. split; [reflexivity|lia]. Qed.

Hypothesis Left : jt = ALeft -> one_row = true \/ forall o, (length (fetch o) <= 1)%nat.
Lemma todo_le o rows : (jt = ALeft -> (length rows <= 1)%nat) -> (length (todo_row o rows) <= 1)%nat.
Proof.
  intros K. unfold todo_row. destruct jt.
  - rewrite firstn_length. lia.
  - destruct (map _ _); cbn; lia.
  - specialize (K eq_refl). destruct rows as [|i [|j q]]; cbn in *; [lia| |lia]. destruct (sat o i); cbn; lia.
Qed.
Lemma nested_loop_spec cap : forall os is b cnt, (jt = ALeft -> (length is <= 1)%nat) ->
  match nested_loop n oids iids jt cs limit one_row cap fetch os is b cnt with
  | Fail => one_row = true /\ exists o, In o os /\ (1 < length (fetch o))%nat
  | Batch b' false (os', is', cnt') =>
      exists d, b' = b ++ d /\ cnt' = (cnt + length d)%nat /\ (cap <= length b')%nat /\ nested_todo os is = d ++ nested_todo os' is' /\
                (jt = ALeft -> (length is' <= 1)%nat) /\ incl os' os /\ (length d + length os' <= length os)%nat /\
                forall o, In o (unfetched os is) -> In o (unfetched os' is') \/ fitting o
  | Batch b' true _ =>
      exists d rest, b' = b ++ d /\ nested_todo os is = d ++ rest /\ (rest = [] \/ stopped (cnt + length d)) /\
                     (limit = None -> Forall fitting (unfetched os is))
  end.
Proof.
  induction os as [|o q IH]; intros is b cnt Le; cbn [nested_loop].
  - exists [], []. rewrite app_nil_r. repeat split; auto. intros _. destruct is; constructor.
  - set (got := match is with [] => fetch_checked one_row fetch o | _ => Some is end).
    destruct got as [rows|] eqn:G.
    2: { subst got. destruct is; [|discriminate]. apply fetch_none in G as [G1 G2]. split; [exact G1|]. exists o. split; [now left|exact G2]. }
    assert (R : rows = match is with [] => fetch o | _ => is end /\ (jt = ALeft -> (length rows <= 1)%nat) /\ (is = [] -> fitting o)).
    { subst got. destruct is as [|i0 is0]; [|injection G as <-; auto; repeat split; auto; discriminate].
      apply fetch_some in G as [-> F]. repeat split; auto. intros J. destruct (Left J) as [X|X]; [exact (F X)|apply X]. }
    destruct R as (ER & LR & FR).
    pose proof (nested_inner_spec cap o rows b cnt LR) as X.
    assert (T0 : nested_todo (o :: q) is = todo_row o rows ++ nested_todo q []).
    { rewrite nested_todo_nil. cbn [nested_todo]. now rewrite ER. }
    assert (UN : forall x, In x (unfetched (o :: q) is) -> In x q \/ fitting x).
    { intros x. unfold unfetched. destruct is; [|now left]. intros [<-|Hx]; [right; auto|now left]. }
    destruct (nested_inner n oids iids jt cs limit cap o rows b cnt false) as [b' cnt' m|b'|b' cnt' rest].
    + destruct X as (d & -> & -> & T).
      assert (K : exists d2, (b ++ d) ++ (if m then [] else match jt with ASemi => [] | _ => [nul o] end) = b ++ d ++ d2 /\
                             todo_row o rows = d ++ d2 /\
                             (if m then nested_loop n oids iids jt cs limit one_row cap fetch q [] (b ++ d) (cnt + length d)
                              else match jt with
                                   | ASemi => nested_loop n oids iids jt cs limit one_row cap fetch q [] (b ++ d) (cnt + length d)
                                   | _ => nested_loop n oids iids jt cs limit one_row cap fetch q [] ((b ++ d) ++ [nul o]) (S (cnt + length d))
                                   end) = nested_loop n oids iids jt cs limit one_row cap fetch q [] (b ++ d ++ d2) (cnt + length (d ++ d2))).
      { rewrite T. eexists. split; [rewrite <- app_assoc; reflexivity|]. split; [reflexivity|].
        destruct m; [|destruct jt]; rewrite ?app_nil_r, ?app_length; cbn [length]; rewrite ?app_assoc; f_equal; lia. }
      destruct K as (d2 & _ & E2 & E3). rewrite T0.
      match goal with |- match ?x with _ => _ end => replace x with (nested_loop n oids iids jt cs limit one_row cap fetch q [] (b ++ d ++ d2) (cnt + length (d ++ d2))) by (rewrite <- E3; destruct m, jt; reflexivity) end.
      pose proof (todo_le o rows LR) as LE1. rewrite E2 in LE1. rewrite E2. clear T E2 E3. generalize dependent (d ++ d2). clear d d2. intros d LE1.
      assert (L0 : jt = ALeft -> (length (@nil row) <= 1)%nat) by (cbn; lia). specialize (IH [] (b ++ d) (cnt + length d)%nat L0).
      destruct (nested_loop n oids iids jt cs limit one_row cap fetch q [] (b ++ d) (cnt + length d)) as [b2 [|] [[os' is'] cnt2]|].
      * destruct IH as (d3 & rest & -> & E4 & E5 & E6). exists (d ++ d3), rest. rewrite E4, <- !app_assoc, app_length, Nat.add_assoc. repeat split; auto.
        intros LN. specialize (E6 LN). apply Forall_forall. intros x Hx. apply UN in Hx as [Hx|Hx]; [|exact Hx]. rewrite Forall_forall in E6. apply E6. exact Hx.
      * destruct IH as (d3 & -> & -> & E4 & E5 & E6 & E7 & E9 & E8). exists (d ++ d3). rewrite E5, <- !app_assoc, app_length, Nat.add_assoc. rewrite <- app_assoc in E4. repeat split; auto; [|cbn; lia|].
        -- intros x Hx. right. auto.
        -- intros x Hx. apply UN in Hx as [Hx|Hx]; [|now right]. apply E8. exact Hx.
      * destruct IH as (A & x & Hx & B). split; [exact A|]. exists x. split; [now right|exact B].
    + destruct X as (-> & ST). exists [], (nested_todo (o :: q) is). rewrite app_nil_r, Nat.add_0_r. repeat split; auto.
      intros LN. destruct ST as (k & E & _). congruence.
    + destruct X as (-> & -> & C & NE & TT & LL). exists []. rewrite app_nil_r, Nat.add_0_r. repeat split; auto.
      * rewrite T0. cbn [nested_todo app]. destruct rest; [contradiction|]. rewrite TT, nested_todo_nil. reflexivity.
      * intros x Hx. exact Hx.
      * intros x Hx. unfold unfetched at 1. destruct rest; [contradiction|]. cbn [tl]. now apply UN.
Qed.
End Nested.

(* ---- hash map of the inner rows ---- *)

Section Inner.
Variable seek : row -> list row.
Hypothesis NotSemi : jt <> ASemi.
Hypothesis LeftAll : jt = ALeft -> forall o i, In i (seek o) -> sat o i = true.
Lemma inner_map_bucket_spec cap o : forall ms idx b cnt, (jt = ALeft -> forall i, In i ms -> sat o i = true) ->
  match inner_map_bucket n oids iids jt cs limit cap o ms idx b cnt false with
  | Used b' cnt' m => exists d, b' = b ++ d /\ cnt' = (cnt + length d)%nat /\ todo_row o ms = d ++ (if m then [] else [nul o])
  | Limit b' => exists d rest, b' = b ++ d /\ todo_row o ms = d ++ rest /\ stopped (cnt + length d)
  | Full b' cnt' idx' => exists d done rest, b' = b ++ d /\ cnt' = (cnt + length d)%nat /\ (cap <= length b')%nat /\ ms = done ++ rest /\ idx' = (idx + length done)%nat /\
                         rest <> [] /\ todo_row o ms = d ++ todo_row o rest
  end.
Proof.
  destruct jt eqn:J; [contradiction| |].
  - induction ms as [|i q IH]; intros idx b cnt AL; cbn [inner_map_bucket].
    { exists []. rewrite app_nil_r, Nat.add_0_r. unfold todo_row. rewrite J. auto. }
    destruct (reached_limit limit cnt) eqn:RL; [exists [], (todo_row o (i :: q)); rewrite app_nil_r, Nat.add_0_r; auto using reached|].
    destruct (is_full cap b) eqn:FU.
    { apply Nat.leb_le in FU. exists [], [], (i :: q). rewrite app_nil_r, !Nat.add_0_r. repeat split; auto; discriminate. }
    unfold construct_result_batch. fold (sat o i).
    assert (TT : todo_row o (i :: q) = if sat o i then [] else todo_row o q).
    { unfold todo_row. rewrite J. cbn [filter]. destruct (sat o i); reflexivity. }
    rewrite TT. destruct (sat o i) eqn:SA; cbn [orb].
    + exists []. rewrite app_nil_r, Nat.add_0_r. auto.
    + assert (AL' : AAnti = ALeft -> forall i, In i q -> sat o i = true) by discriminate. specialize (IH (S idx) b cnt AL').
      destruct (inner_map_bucket n oids iids AAnti cs limit cap o q (S idx) b cnt false); auto.
      destruct IH as (d & done & r & A & B & B' & C & D & E & F). exists d, (i :: done), r. cbn. rewrite C. repeat split; auto. lia. congruence.
  - assert (AllSat : forall o ms, (forall i, In i ms -> sat o i = true) -> todo_row o ms = match ms with [] => [nul o] | _ => map (res o) ms end).
    { intros o0 ms K. unfold todo_row. rewrite J. assert (FE : filter (sat o0) ms = ms).
      { induction ms as [|i q IHm]; [reflexivity|]. cbn [filter]. rewrite K by now left. f_equal. apply IHm. intros. apply K. now right. }
      rewrite FE. destruct ms; reflexivity. }
    intros ms idx b cnt AL. specialize (AL eq_refl). rewrite (AllSat o ms AL).
    assert (G : forall ms idx b cnt hm, (forall i, In i ms -> sat o i = true) ->
      match inner_map_bucket n oids iids ALeft cs limit cap o ms idx b cnt hm with
      | Used b' cnt' m => exists d, b' = b ++ d /\ cnt' = (cnt + length d)%nat /\ map (res o) ms = d /\ m = match ms with [] => hm | _ => true end
      | Limit b' => exists d rest, b' = b ++ d /\ map (res o) ms = d ++ rest /\ rest <> [] /\ stopped (cnt + length d)
      | Full b' cnt' idx' => exists d done rest, b' = b ++ d /\ cnt' = (cnt + length d)%nat /\ (cap <= length b')%nat /\ ms = done ++ rest /\ idx' = (idx + length done)%nat /\
                         rest <> [] /\ map (res o) ms = d ++ map (res o) rest
      end).
    { clear ms idx b cnt AL. induction ms as [|i q IH]; intros idx b cnt hm AL; cbn [inner_map_bucket].
      { exists []. rewrite app_nil_r, Nat.add_0_r. auto. }
      destruct (reached_limit limit cnt) eqn:RL.
      { exists [], (map (res o) (i :: q)). rewrite app_nil_r, Nat.add_0_r. repeat split; auto using reached. discriminate. }
      destruct (is_full cap b) eqn:FU.
      { apply Nat.leb_le in FU. exists [], [], (i :: q). rewrite app_nil_r, !Nat.add_0_r. repeat split; auto; discriminate. }
      unfold construct_result_batch. fold (sat o i). rewrite AL by now left. rewrite orb_true_r.
      assert (AL' : forall i, In i q -> sat o i = true) by (intros; apply AL; now right). specialize (IH (S idx) (b ++ [res o i]) (S cnt) true AL').
      destruct (inner_map_bucket n oids iids ALeft cs limit cap o q (S idx) (b ++ [res o i]) (S cnt) true).
      - destruct IH as (d & -> & -> & A & B). exists (res o i :: d). rewrite <- app_assoc. cbn. repeat split; [lia|congruence|]. rewrite B. destruct q; reflexivity.
      - destruct IH as (d & r & -> & A & B & C). exists (res o i :: d), r. rewrite <- app_assoc. cbn [length map app]. rewrite A. repeat split; auto. now rewrite Nat.add_succ_r.
      - destruct IH as (d & done & r & -> & -> & A & B & -> & C & D). exists (res o i :: d), (i :: done), r. rewrite <- app_assoc in *. cbn [length map app] in *. rewrite B in *.
        repeat split; auto; try lia. now rewrite D. }
    specialize (G ms idx b cnt false AL).
    destruct (inner_map_bucket n oids iids ALeft cs limit cap o ms idx b cnt false) as [b' cnt' m|b'|b' cnt' idx'].
    + destruct G as (d & -> & -> & <- & ->). exists (map (res o) ms). repeat split; auto. destruct ms; [reflexivity|now rewrite app_nil_r].
    + destruct G as (d & r & -> & E & NE & ST). exists d, r. repeat split; auto. destruct ms; [|exact E]. destruct d; [cbn in E; congruence|discriminate].
    + destruct G as (d & done & r & -> & -> & C & E & -> & NE & D). exists d, done, r. repeat split; auto. rewrite (AllSat o r).
      2: { intros i Hi. apply AL. rewrite E. apply in_or_app. now right. }
      destruct r; [contradiction|]. destruct ms; [destruct done; discriminate|exact D].
Qed.

Definition inner_todo (os : list row) (idx : nat) : list row :=
  match os with [] => [] | o :: q => todo_row o (skipn idx (seek o)) ++ flat_map (fun o => todo_row o (seek o)) q end.
Lemma inner_todo_0 os : inner_todo os 0 = flat_map (fun o => todo_row o (seek o)) os.
Proof. destruct os; reflexivity. Qed.
Lemma skipn_in {A} k (l : list A) x : In x (skipn k l) -> In x l.
Proof. intros Hx. rewrite <- (firstn_skipn k l). apply in_or_app. now right. Qed.
Lemma todo_nil o : todo_row o [] = [nul o].
Proof. unfold todo_row. destruct jt; [contradiction|reflexivity..]. Qed.
Lemma inner_map_spec cap : forall os idx b cnt,
  match inner_map_loop n oids iids jt cs limit cap seek os idx b cnt with
  | Fail => False
  | Batch b' false (os', idx', cnt') => exists d, b' = b ++ d /\ cnt' = (cnt + length d)%nat /\ (cap <= length b')%nat /\ inner_todo os idx = d ++ inner_todo os' idx'
  | Batch b' true _ => exists d rest, b' = b ++ d /\ inner_todo os idx = d ++ rest /\ (rest = [] \/ stopped (cnt + length d))
  end.
Proof.
  induction os as [|o q IH]; intros idx b cnt; cbn [inner_map_loop].
  { exists [], []. rewrite app_nil_r. auto. }
  destruct (seek o) as [|i0 ms0] eqn:SK.
  - destruct (reached_limit limit cnt) eqn:RL.
    { exists [], (inner_todo (o :: q) idx). rewrite app_nil_r, Nat.add_0_r. auto using reached. }
    destruct (is_full cap b) eqn:FU.
    { apply Nat.leb_le in FU. exists []. rewrite app_nil_r, Nat.add_0_r. auto. }
    specialize (IH 0%nat (b ++ [nul o]) (S cnt)). rewrite inner_todo_0 in IH.
    assert (T0 : inner_todo (o :: q) idx = nul o :: flat_map (fun o => todo_row o (seek o)) q).
    { cbn [inner_todo]. rewrite SK, skipn_nil, todo_nil. reflexivity. }
    rewrite T0. destruct (inner_map_loop n oids iids jt cs limit cap seek q 0 (b ++ [nul o]) (S cnt)) as [b' [|] [[os' idx'] cnt']|]; [| |exact IH].
    + destruct IH as (d & rest & -> & E & F). exists (nul o :: d), rest. rewrite <- app_assoc. cbn [app length]. rewrite E. repeat split; auto. now rewrite Nat.add_succ_r.
    + destruct IH as (d & -> & -> & C & E). exists (nul o :: d). rewrite <- app_assoc in *. cbn [app length] in *. rewrite E. repeat split; auto. lia.
  - rewrite <- SK.
    assert (AL : jt = ALeft -> forall i, In i (skipn idx (seek o)) -> sat o i = true) by (intros J i Hi; apply (LeftAll J); eapply skipn_in; eauto).
    pose proof (inner_map_bucket_spec cap o (skipn idx (seek o)) idx b cnt AL) as X.
    destruct (inner_map_bucket n oids iids jt cs limit cap o (skipn idx (seek o)) idx b cnt false) as [b' cnt' m|b'|b' cnt' idx'].
    + destruct X as (d & -> & -> & T). cbn [inner_todo]. rewrite T.
      set (e := d ++ (if m then [] else [nul o])) in *.
      assert (K : (if m then inner_map_loop n oids iids jt cs limit cap seek q 0 (b ++ d) (cnt + length d)
                   else inner_map_loop n oids iids jt cs limit cap seek q 0 ((b ++ d) ++ [nul o]) (S (cnt + length d)))
                  = inner_map_loop n oids iids jt cs limit cap seek q 0 (b ++ e) (cnt + length e)).
      { subst e. destruct m; rewrite ?app_nil_r, ?app_length; cbn [length]; rewrite ?app_assoc; f_equal; lia. }
      rewrite K. clearbody e. specialize (IH 0%nat (b ++ e) (cnt + length e)%nat). rewrite inner_todo_0 in IH.
      destruct (inner_map_loop n oids iids jt cs limit cap seek q 0 (b ++ e) (cnt + length e)) as [b' [|] [[os' idx'] cnt']|]; [| |exact IH].
      * destruct IH as (d3 & rest & -> & E & F). exists (e ++ d3), rest. rewrite E, <- !app_assoc, app_length, Nat.add_assoc. auto.
      * destruct IH as (d3 & -> & -> & C & E). exists (e ++ d3). rewrite E, <- !app_assoc, app_length, Nat.add_assoc. rewrite <- app_assoc in C. auto.
    + destruct X as (d & rest & -> & T & ST). cbn [inner_todo]. rewrite T, <- app_assoc. eexists d, _. repeat split; auto.
    + destruct X as (d & done & rest & -> & -> & C & E & -> & NE & T). cbn [inner_todo]. exists d. repeat split; auto. rewrite T, <- app_assoc. repeat f_equal.
      clear -E. revert E. generalize (seek o). intros l. revert idx. induction idx as [|k IHk] in l |- *; intros E.
      * cbn in *. subst l. induction done; cbn; auto.
      * destruct l; cbn [skipn Nat.add] in *; [destruct done; [destruct rest|]; cbn in *; auto; discriminate|auto].
Qed.
End Inner.
End Node.
