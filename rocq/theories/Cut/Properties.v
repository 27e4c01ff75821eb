(* C42, C43, C44: the rewriting of WHERE conditions, OR into IN, row conditions. *)
From Verif Require Import Common.Bytes Common.KV Expr.Value Expr.Model Expr.Spec Expr.Proofs Expr.RowCompare Cut.Model Cut.Spec Cut.Values Cut.Truth Cut.OrIn Cut.Proofs Cut.Def Cut.Row.
Local Open Scope Z_scope.



(* ---------- C42 ---------- *)

(* The rewritten conjuncts keep exactly the rows the written ones keep; a query answered
   without looking at the table had no row to return. *)
Theorem C42_same_rows : forall Z C cs res,
  Forall (fun p => wt Z C p /\ or_ok Z C p) cs -> optimize cs = Some res ->
  forall r, row_fz Z C r ->
  (keeps cs r = Some true <-> exists cs', res = Some cs' /\ keeps cs' r = Some true).
Proof.
  intros Z C cs res F E r R. destruct (optimize_true Z C cs res F E) as (_&T). rewrite keeps_true, (T r R).
  split; intros (cs'&Er&H); exists cs'; (split; [exact Er|]); apply keeps_true; exact H.
Qed.
Print Assumptions C42_same_rows.

(* Against SQL: the rows kept are those for which every conjunct of the statement is TRUE. *)
Theorem C42_sql : forall Z C es ps res,
  infers es = Some ps -> Forall (fun p => wt Z C p /\ or_ok Z C p) ps -> optimize ps = Some res ->
  forall r, row_fz Z C r -> Forall (fun e => ok r e /\ condition e) es ->
  ((exists cs', res = Some cs' /\ keeps cs' r = Some true) <-> Forall (fun e => truth (sql r e) = Some true) es).
Proof.
  intros Z C es ps res Ei F E r R K. rewrite <- (C42_same_rows Z C ps res F E r R), (infers_keeps es ps Ei r).
  destruct (need_copy_ok r es K) as (b&Eb&Hb). rewrite Eb, <- Hb. split; congruence.
Qed.
Print Assumptions C42_sql.

(* With at most 16 conditions on single columns, the rewriting ends and what it leaves
   can be evaluated in every row. *)
Theorem C42_defined_partial : forall (Z : value -> Prop) C cs, Z vnull ->
  Forall (fun p => wt Z C p /\ or_ok Z C p /\ plain (or_optimize p)) cs -> (length cs <= 16)%nat ->
  exists res, optimize cs = Some res /\
    forall l, res = Some l -> Forall (fun p => (forall e, p <> Other e) -> forall r, row_fz Z C r -> exists v, peval r p = Some v) l.
Proof.
  intros Z C cs Z0 F Len. destruct (optimize_def Z C Z0 cs F Len) as (res&E&W). exists res. split; [exact E|].
  intros l El. eapply Forall_impl; [|exact (W l El)]. intros p (Wp&Pp) NO r R. apply (peval_def Z C p r Wp Pp NO R).
Qed.
Print Assumptions C42_defined_partial.

Definition n64 (z : Z) : value := vnum PI64 z.
Definition col (i : nat) : leaf := LSlot i PI64.
Definition cmp (o : cmpop) (i : nat) (v : value) : pred := Cmp o PI64 (col i) v.
Definition at2 (x y : value) : row := fun i => match i with O => x | _ => y end.

(* a > 5 AND a > NULL: no row satisfies it, the rewritten condition keeps a = 6 *)
Theorem C42_null_bound_refuted : exists cs r,
  (forall i, holds PI64 (r i)) /\ keeps cs r = Some false /\
  optimize cs = Some (Some [cmp CGt 0 (n64 5)]) /\ keeps [cmp CGt 0 (n64 5)] r = Some true.
Proof.
  exists [cmp CGt 0 (n64 5); cmp CGt 0 vnull], (at2 (n64 6) (n64 0)). split.
  - intros [|i]; (split; [repeat constructor; cbn; lia|split; [discriminate|right; reflexivity]]).
  - repeat split; vm_compute; reflexivity.
Qed.
Print Assumptions C42_null_bound_refuted.

(* a <= 0 AND a >= NULL becomes a = 0 *)
Theorem C42_null_range_refuted : exists cs r,
  (forall i, holds PI64 (r i)) /\ keeps cs r = Some false /\
  optimize cs = Some (Some [cmp CEq 0 (n64 0)]) /\ keeps [cmp CEq 0 (n64 0)] r = Some true.
Proof.
  exists [cmp CLe 0 (n64 0); cmp CGe 0 vnull], (at2 (n64 0) (n64 0)). split.
  - intros [|i]; (split; [repeat constructor; cbn; lia|split; [discriminate|right; reflexivity]]).
  - repeat split; vm_compute; reflexivity.
Qed.
Print Assumptions C42_null_range_refuted.

(* a IN ('', 'y') AND a IN (NULL, 'x') on a text column becomes a IN ('') *)
Definition se (s : list Z) : elem := (PString, vstr s).
Theorem C42_null_text_refuted : exists cs cs' r,
  (forall i, holds PString (r i)) /\ keeps cs r <> Some true /\
  optimize cs = Some (Some cs') /\ keeps cs' r = Some true.
Proof.
  exists [In (LSlot 0 PString) [se []; se [121]] false; In (LSlot 0 PString) [(PString, vnull); se [120]] true],
    [In (LSlot 0 PString) [se []] false], (fun _ => vstr []). split.
  - intros i. split; [repeat constructor|split; [discriminate|right; reflexivity]].
  - split; [vm_compute; discriminate|]. split; vm_compute; reflexivity.
Qed.
Print Assumptions C42_null_text_refuted.

(* (a, a) = (1, 2): a column written twice in a row is replaced in its last place only, and the
   row a = 1 is returned *)
Theorem C42_twice_refuted : exists cs cs' r,
  (forall i, holds PI64 (r i)) /\ keeps cs r = Some false /\
  optimize cs = Some (Some cs') /\ keeps cs' r = Some true.
Proof.
  exists [RowCmp CEq [col 0; col 0] [n64 1; n64 2]], [RowCmp CEq [col 0; LVal (n64 2)] [n64 1; n64 2]], (fun _ => n64 1). split.
  - intros i. split; [repeat constructor; cbn; lia|split; [discriminate|right; reflexivity]].
  - repeat split; vm_compute; reflexivity.
Qed.
Print Assumptions C42_twice_refuted.

(* a = 1 AND (a, b) IN ((1, 2)) AND (a, c) = (1, 2): a freed node is read *)
Definition ie (z : Z) : elem := (PI64, n64 z).
Theorem C42_freed_refuted :
  optimize [cmp CEq 0 (n64 1); RowIn [col 0; col 1] [[ie 1; ie 2]] false; RowCmp CEq [col 0; col 2] [n64 1; n64 2]] = None.
Proof. vm_compute. reflexivity. Qed.
Print Assumptions C42_freed_refuted.

(* a < 5 written 17 times: the order given to std::sort is not strict *)
Theorem C42_sort_refuted :
  optimize (repeat (cmp CLt 0 (n64 5)) 17) = None /\ optimize (repeat (cmp CLt 0 (n64 5)) 16) = Some (Some [cmp CLt 0 (n64 5)]).
Proof. split; vm_compute; reflexivity. Qed.
Print Assumptions C42_sort_refuted.

(* (a = 3 OR a = 7 OR a = 9) AND a >= 4 AND a <> 8 AND (a, b) IN ((7, 1), (9, 2), (3, 4))
   AND b <= 1 AND b < 8 *)
Definition ex_cs : list pred :=
  [Other (EOr (map (fun z => ECmp CEq (ESlot 0 PI64) (ELit (n64 z))) [3; 7; 9]));
   cmp CGe 0 (n64 4); cmp CNe 0 (n64 8); RowIn [col 0; col 1] [[ie 7; ie 1]; [ie 9; ie 2]; [ie 3; ie 4]] false;
   cmp CLe 1 (n64 1); cmp CLt 1 (n64 8)].
Definition ex_out : list pred :=
  [In (col 0) [ie 7; ie 9] false; cmp CNe 0 (n64 8); RowIn [col 0; col 1] [[ie 7; ie 1]] false].
Lemma n64_fz z : 0 <= z < 100 -> fz no_zero PI64 (n64 z).
Proof. intros L. split; [|intros []]. split; [|right; left; reflexivity]. repeat constructor; cbn; lia. Qed.
Lemma ie_fz z : 0 <= z < 100 -> elem_fz no_zero PI64 (ie z).
Proof. intros L. destruct (n64_fz z L) as (A&B). split; [|split; [exact B|discriminate]]. split; [left; reflexivity|exact A]. Qed.
Lemma us64 : usable PI64. Proof. split; discriminate. Qed.
Lemma col_fz i : leaf_fz no_zero (fun _ => PI64) PI64 (col i). Proof. split; reflexivity. Qed.
Lemma cmp_wt o i z : 0 <= z < 100 -> wt no_zero (fun _ => PI64) (cmp o i (n64 z)).
Proof. intros L. exists PI64. split; [exact us64|]. split; [reflexivity|]. split; [apply col_fz|]. split; [apply n64_fz; exact L|]. destruct o; auto. Qed.
Lemma row_ok x y : 0 <= x < 100 -> 0 <= y < 100 -> row_fz no_zero (fun _ => PI64) (at2 (n64 x) (n64 y)).
Proof.
  intros A B [|i] _; (split; [split; [repeat constructor; cbn; lia|split; [discriminate|right; reflexivity]]|intros []]).
Qed.
Example C42_nonvacuous :
  Forall (fun p => wt no_zero (fun _ => PI64) p /\ or_ok no_zero (fun _ => PI64) p) ex_cs /\
  row_fz no_zero (fun _ => PI64) (at2 (n64 7) (n64 1)) /\
  keeps ex_cs (at2 (n64 7) (n64 1)) = Some true /\ keeps ex_cs (at2 (n64 9) (n64 2)) = Some false /\
  optimize ex_cs = Some (Some ex_out).
Proof.
  split; [|split; [apply row_ok; lia|split; [vm_compute; reflexivity|split; [vm_compute; reflexivity|]]]].
  - repeat (apply Forall_cons; [split|]); try apply Forall_nil; try exact Logic.I; try (apply cmp_wt; lia).
    + split.
      * intros xs E. vm_compute in E. injection E as <-. repeat (apply Forall_cons; [|]); try apply Forall_nil;
          (split; [exact us64|]; split; [reflexivity|]; split; [repeat constructor; cbn; lia|]; split; [reflexivity|intros []]).
      * intros rs E. vm_compute in E. discriminate.
    + exists [PI64; PI64]. split; [repeat constructor; discriminate|]. split; [repeat constructor|]. split.
      { constructor; [intros [E|[]]; discriminate|]. constructor; [intros []|constructor]. }
      split; [discriminate|]. split; [|auto].
      repeat (apply Forall_cons; [|]); try apply Forall_nil; (constructor; [apply ie_fz; lia|constructor; [apply ie_fz; lia|constructor]]).
  - vm_compute. reflexivity.
Qed.

(* three conditions on one column and a row written in SQL; the text of the statement,
   the conditions after type inference, and what is left: a = 7 *)
Example C42_sql_nonvacuous :
  let es := [EIn (ESlot 0 PI64) (map (fun z => ELit (n64 z)) [3; 7; 9]); ECmp CGt (ESlot 0 PI64) (ELit (n64 3));
             ECmp CLe (ESlot 0 PI64) (ELit (n64 8))] in
  exists ps, infers es = Some ps /\
    Forall (fun p => wt no_zero (fun _ => PI64) p /\ or_ok no_zero (fun _ => PI64) p /\ plain (or_optimize p)) ps /\
    optimize ps = Some (Some [In (col 0) [ie 7] false]) /\
    Forall (fun e => ok (at2 (n64 7) (n64 1)) e /\ condition e) es.
Proof.
  exists [In (col 0) [ie 3; ie 7; ie 9] false; cmp CGt 0 (n64 3); cmp CLe 0 (n64 8)].
  split; [reflexivity|]. split; [|split; [vm_compute; reflexivity|]].
  - constructor; [|constructor; [|constructor; [|constructor]]]; (split; [|split; [exact Logic.I|]]); try (apply cmp_wt; lia); try exact Logic.I.
    + exists PI64. split; [exact us64|]. split; [apply col_fz|]. split; [discriminate|].
      repeat (apply Forall_cons; [apply ie_fz; lia|]). apply Forall_nil.
    + repeat (apply Forall_cons; [eexists; reflexivity|]). apply Forall_nil.
  - assert (H0 : holds PI64 (n64 7)) by (split; [repeat constructor; cbn; lia|split; [discriminate|right; reflexivity]]).
    assert (L : forall z, 0 <= z < 100 -> wf (n64 z)) by (intros z Lz; repeat constructor; cbn; lia).
    assert (Ft : forall z, 0 <= z < 100 -> fits PI64 (n64 z)) by (intros z Lz; right; cbn; split; [left; reflexivity|lia]).
    constructor; [|constructor; [|constructor; [|constructor]]]; (split; [|discriminate]).
    + split; [exact H0|]. split; [discriminate|]. exists PI64, 0%nat. split; [reflexivity|]. split; [discriminate|].
      repeat (apply Forall_cons; [eexists; split; [reflexivity|split; [apply L; lia|right; right; split; [reflexivity|split; [left; reflexivity|reflexivity]]]]|]).
      apply Forall_nil.
    + split; [exact H0|]. split; [apply L; lia|]. do 2 (split; [exact Logic.I|]). split; [discriminate|]. split; apply Ft; lia.
    + split; [exact H0|]. split; [apply L; lia|]. do 2 (split; [exact Logic.I|]). split; [discriminate|]. split; apply Ft; lia.
Qed.

(* ---------- C43 ---------- *)

(* An OR of equalities (or of ANDs of equalities over the same columns) that is turned
   into IN is TRUE in the same rows. *)
Theorem C43_or_in : forall Z C p, or_ok Z C p -> wt Z C p ->
  wt Z C (or_optimize p) /\ forall r, row_fz Z C r -> (TRUE r p <-> TRUE r (or_optimize p)).
Proof. exact or_ok_true. Qed.
Print Assumptions C43_or_in.

Definition eqn (i : nat) (v : value) : expr := ECmp CEq (ESlot i PI64) (ELit v).
(* a = NULL OR a = 2^53 + 1 is TRUE for a = 2^53 after the rewriting *)
Theorem C43_null_refuted :
  let p := Other (EOr [eqn 0 vnull; eqn 0 (n64 (2^53 + 1))]) in let r := at2 (n64 (2^53)) (n64 0) in
  peval r p = Some vnull /\ peval r (or_optimize p) = Some (vbool true).
Proof. split; vm_compute; reflexivity. Qed.
Print Assumptions C43_null_refuted.

(* (a = 1 AND b = 2 AND b = 2) OR (a = 5 AND a = 5 AND b = 6) loses the row (5, 6) *)
Theorem C43_twice_refuted :
  let p := Other (EOr [EAnd [eqn 0 (n64 1); eqn 1 (n64 2); eqn 1 (n64 2)]; EAnd [eqn 0 (n64 5); eqn 0 (n64 5); eqn 1 (n64 6)]]) in
  let r := at2 (n64 5) (n64 6) in
  peval r p = Some (vbool true) /\ peval r (or_optimize p) = Some (vbool false).
Proof. split; vm_compute; reflexivity. Qed.
Print Assumptions C43_twice_refuted.

(* (a = 'a\0b' AND b = 'c') OR (a = 'x' AND b = 'y') finds a = 'a', b = 'b\0c' *)
Definition eqs (i : nat) (s : list Z) : expr := ECmp CEq (ESlot i PString) (ELit (vstr s)).
Theorem C43_zero_byte_refuted :
  let p := Other (EOr [EAnd [eqs 0 [97; 0; 98]; eqs 1 [99]]; EAnd [eqs 0 [120]; eqs 1 [121]]]) in
  let r := at2 (vstr [97]) (vstr [98; 0; 99]) in
  peval r p = Some (vbool false) /\ peval r (or_optimize p) = Some (vbool true).
Proof. split; vm_compute; reflexivity. Qed.
Print Assumptions C43_zero_byte_refuted.

(* (b = 2 AND a = 1) OR (a = 5 AND b = 6) becomes (a, b) IN ((1, 2), (5, 6)) *)
Example C43_nonvacuous :
  let p := Other (EOr [EAnd [eqn 1 (n64 2); eqn 0 (n64 1)]; EAnd [eqn 0 (n64 5); eqn 1 (n64 6)]]) in
  or_ok no_zero (fun _ => PI64) p /\ wt no_zero (fun _ => PI64) p /\
  or_optimize p = RowIn [col 0; col 1] [[ie 1; ie 2]; [ie 5; ie 6]] false /\
  TRUE (at2 (n64 5) (n64 6)) p /\ ~ TRUE (at2 (n64 5) (n64 2)) p.
Proof.
  intros p. split; [|split; [exact Logic.I|split; [vm_compute; reflexivity|split]]].
  - split; [intros xs E; vm_compute in E; discriminate|]. intros rs E. vm_compute in E. injection E as <-. split; [|auto].
    assert (K : forall i z, 0 <= z < 100 -> eq_ok no_zero (fun _ => PI64) (i, PI64, n64 z) /\ PI64 <> PDouble).
    { intros i z Lz. split; [|discriminate]. split; [exact us64|]. split; [reflexivity|].
      split; [repeat constructor; cbn; lia|]. split; [reflexivity|intros []]. }
    constructor; [|constructor; [|constructor]]; (split; [constructor; [apply K; lia|constructor; [apply K; lia|constructor]]|]);
      (constructor; [intros [E|[]]; discriminate|constructor; [intros []|constructor]]).
  - exists (vbool true). repeat split.
  - intros (v&E&_&G). vm_compute in E. injection E as <-. discriminate.
Qed.

(* ---------- C44 ---------- *)

(* Rows of non-NULL values compare as SQL rows, with every operator. *)
Theorem C44_rows_partial : forall Z C r o xs vs, row_fz Z C r -> wt Z C (RowCmp o xs vs) ->
  exists l, leaf_vals r xs = Some l /\
    (Forall (fun v => is_null v = false) l ->
     exists b, peval r (RowCmp o xs vs) = Some (vbool b) /\ row3 o (combine (map denote l) (map denote vs)) = Some b).
Proof. intros Z C r o xs vs R W. exact (row_cmp_sql Z C r R o xs vs W). Qed.
Print Assumptions C44_rows_partial.

(* Equality of rows as a conjunct, NULL columns included. *)
Theorem C44_row_equal : forall Z C r xs vs, row_fz Z C r -> wt Z C (RowCmp CEq xs vs) ->
  exists l, leaf_vals r xs = Some l /\
    (TRUE r (RowCmp CEq xs vs) <-> row3 CEq (combine (map denote l) (map denote vs)) = Some true).
Proof. intros Z C r xs vs R W. exact (row_eq_sql Z C r R xs vs W). Qed.
Print Assumptions C44_row_equal.

(* A row in a list of rows as a conjunct. *)
Theorem C44_row_in : forall Z C r xs rows hn, row_fz Z C r -> wt Z C (RowIn xs rows hn) ->
  exists l, leaf_vals r xs = Some l /\
    (TRUE r (RowIn xs rows hn) <->
     row_in3 (map denote l) (map (fun g => map (fun e : elem => denote (snd e)) g) rows) = Some true).
Proof. intros Z C r xs rows hn R W. exact (row_in_sql Z C r R xs rows hn W). Qed.
Print Assumptions C44_row_in.

(* (a, b) = (NULL, 1) is TRUE for a NULL and for a = 0 *)
Theorem C44_null_constant_refuted :
  let p := RowCmp CEq [col 0; col 1] [vnull; n64 1] in
  peval (at2 vnull (n64 1)) p = Some (vbool true) /\ peval (at2 (n64 0) (n64 1)) p = Some (vbool true) /\
  row3 CEq [(SNull, SNull); (SNum 1 0, SNum 1 0)] = None /\ row3 CEq [(SNum 0 0, SNull); (SNum 1 0, SNum 1 0)] = None.
Proof. repeat split; vm_compute; reflexivity. Qed.
Print Assumptions C44_null_constant_refuted.

(* (a, b) < (5, 1) and (a, b) <> (1, 2) are TRUE for a NULL *)
Theorem C44_null_column_refuted :
  let r := at2 vnull (n64 2) in
  peval r (RowCmp CLt [col 0; col 1] [n64 5; n64 1]) = Some (vbool true) /\
  row3 CLt [(SNull, SNum 5 0); (SNum 2 0, SNum 1 0)] = None /\
  peval r (RowCmp CNe [col 0; col 1] [n64 1; n64 2]) = Some (vbool true) /\
  row3 CNe [(SNull, SNum 1 0); (SNum 2 0, SNum 2 0)] = None.
Proof. repeat split; vm_compute; reflexivity. Qed.
Print Assumptions C44_null_column_refuted.

(* (a, b) IN ((1, 2)) for a NULL and b = 3 is NULL where SQL says FALSE, so NOT IN loses
   the row *)
Theorem C44_not_in_refuted :
  peval (at2 vnull (n64 3)) (RowIn [col 0; col 1] [[ie 1; ie 2]] false) = Some vnull /\
  row_in3 [SNull; SNum 3 0] [[SNum 1 0; SNum 2 0]] = Some false.
Proof. split; vm_compute; reflexivity. Qed.
Print Assumptions C44_not_in_refuted.

(* ('a', 'b\0c') is found in (('a\0b', 'c')) *)
Theorem C44_zero_byte_refuted :
  peval (at2 (vstr [97]) (vstr [98; 0; 99])) (RowIn [LSlot 0 PString; LSlot 1 PString] [[se [97; 0; 98]; se [99]]] false) = Some (vbool true) /\
  row_in3 [SStr [97]; SStr [98; 0; 99]] [[SStr [97; 0; 98]; SStr [99]]] = Some false.
Proof. split; vm_compute; reflexivity. Qed.
Print Assumptions C44_zero_byte_refuted.

(* (a, b) <= (5, 1) and (a, b) IN ((5, 1), (6, 2)) *)
Example C44_nonvacuous :
  wt no_zero (fun _ => PI64) (RowCmp CLe [col 0; col 1] [n64 5; n64 1]) /\
  wt no_zero (fun _ => PI64) (RowIn [col 0; col 1] [[ie 5; ie 1]; [ie 6; ie 2]] false) /\
  peval (at2 (n64 5) (n64 2)) (RowCmp CLe [col 0; col 1] [n64 5; n64 1]) = Some (vbool false) /\
  peval (at2 (n64 6) (n64 2)) (RowIn [col 0; col 1] [[ie 5; ie 1]; [ie 6; ie 2]] false) = Some (vbool true).
Proof.
  assert (ND : NoDup (slots [col 0; col 1])) by (constructor; [intros [E|[]]; discriminate|constructor; [intros []|constructor]]).
  split; [|split; [|split; vm_compute; reflexivity]].
  - exists [PI64; PI64]. split; [repeat constructor; discriminate|]. split; [repeat constructor|]. split; [exact ND|].
    constructor; [split; [apply n64_fz; lia|reflexivity]|constructor; [split; [apply n64_fz; lia|reflexivity]|constructor]].
  - exists [PI64; PI64]. split; [repeat constructor; discriminate|]. split; [repeat constructor|]. split; [exact ND|].
    split; [discriminate|]. split; [|auto].
    repeat (apply Forall_cons; [constructor; [apply ie_fz; lia|constructor; [apply ie_fz; lia|constructor]]|]). apply Forall_nil.
Qed.
