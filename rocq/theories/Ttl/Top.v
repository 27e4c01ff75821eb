(* The theorems of PropertiesTtl.v, and the cases in which the code does something else. *)
From Verif Require Import Common.Bytes Key.Model Split.Model Ttl.Spec Ttl.Model Ttl.Claims Ttl.Proofs Ttl.Statements.
Local Open Scope Z_scope.

Lemma repr_reads big max g s : max < 2 ^ 31 -> repr big max g s -> reads_as big max g (snd s).
Proof.
  intros Hm R now Hn. split; [intros k; apply get_repr; assumption|intros sel; apply scan_repr; assumption].
Qed.

Lemma empty_repr big max ttl : repr big max (empty_region ttl) (ttl, []).
Proof. split; [reflexivity|constructor]. Qed.

Lemma repr_storable big max g t : repr big max g (true, t) -> rg_base g = 0 \/ plausible (rg_base g) ->
  all_storable max (rg_base g) t.
Proof.
  intros [U F] Hb. cbn [fst snd] in *. rewrite U in F. unfold all_storable.
  induction F as [|[k sv] [k' [v e]] l m [E H] F IH]; constructor; [|exact IH]. cbn [fst snd stored] in *. subst k'.
  destruct H as (x & -> & [(_ & Hx & C)|(N & _ & -> & C)]).
  - split; assumption.
  - destruct Hb as [B|P]; [contradiction|]. split; [|right; split; assumption].
    unfold plausible in P. unfold i64_time. change (2 ^ 63) with 9223372036854775808. lia.
Qed.

Lemma base_kept big ops : Forall (fun o => match o with Turn_on b => plausible b | _ => True end) ops -> forall g,
  rg_base g = 0 \/ plausible (rg_base g) -> rg_base (fold_left (apply big) ops g) = 0 \/ plausible (rg_base (fold_left (apply big) ops g)).
Proof.
  induction 1 as [|o ops Ho F IH]; intros g Hg; [exact Hg|]. cbn [fold_left]. apply IH.
  destruct o; cbn [apply put_kv delete_kv rg_base]; try exact Hg. unfold update_ttl_info.
  destruct (rg_use g); [exact Hg|right; exact Ho].
Qed.

Lemma created_base big ops g : rg_use g = true -> rg_base (fold_left (apply big) ops g) = rg_base g.
Proof.
  revert g; induction ops as [|o ops IH]; intros g U; [reflexivity|]. cbn [fold_left]. rewrite IH.
  - destruct o; try reflexivity. cbn [apply]. unfold update_ttl_info. rewrite U. reflexivity.
  - destruct o; try exact U. cbn [apply]. unfold update_ttl_info. rewrite U. exact U.
Qed.

Lemma statement_runs big max begin now hint duration s g t : max < 2 ^ 31 -> 0 < begin -> begin <= now -> 0 < duration ->
  repr big max g (true, t) -> (rg_base g = 0 \/ plausible (rg_base g)) ->
  i64_time (fresh now hint duration) /\ (rg_base g = 0 \/ plausible (fresh now hint duration)) ->
  statement_fine max (rg_base g) hint s ->
  match run_statement begin now hint duration s t with
  | Some t' => exists g' ts, exec_statement big max begin now hint duration s g = Run g' ts /\ reads_as big max g' t'
  | None => exec_statement big max begin now hint duration s g = Fails
  end.
Proof.
  intros Hm Hb0 Hn Hd R Hb Ht Hs.
  assert (I0 : inv big max (rg_base g) g t) by (split; [exact R|split; [reflexivity|apply (repr_storable big); assumption]]).
  unfold exec_statement. rewrite (init_fresh (rg_base g)) by assumption.
  assert (H0 : 0 < fresh now hint duration) by (destruct Ht as [H _]; unfold i64_time in H; lia).
  destruct s as [keys f|rows mode]; cbn [run_statement statement_fine] in *.
  - destruct (update_loop big max (rg_base g) begin now hint duration Hm Hb0 Ht f keys Hs g t _ I0 H0 (fun _ => eq_refl)) as (g' & ts & E & (R' & _)).
    exists g', ts. split; [exact E|]. exact (repr_reads big max g' _ Hm R').
  - pose proof (insert_loop big max (rg_base g) begin now hint duration Hm Hb0 Ht mode rows Hs g t I0) as L.
    destruct (insert_all begin now hint duration mode rows t) as [t'|]; [|exact L].
    destruct L as (g' & E & (R' & _)). exists g', (fresh now hint duration). split; [exact E|]. exact (repr_reads big max g' _ Hm R').
Qed.

(* ---- a check that never ends ---- *)

(* an 8-byte time, then a row with one byte string column *)
Definition trap_time : Z := 0x000660080008000A.
Definition trap_string : list Z :=
  repeat 0 17 ++ [10; 245; 255; 255; 255; 255; 255; 255; 255; 255; 1].
Definition trap_row : list Z := row_bytes [(2, Bytes trap_string)].
Definition trap_value : list Z := app_i64 false trap_time ++ trap_row.

Lemma trap_here fuel : verify_loop fuel trap_value 96 27 = VHang.
Proof.
  induction fuel as [|fuel IH]; [reflexivity|]. 
  assert (E : verify_loop (S fuel) trap_value 96 27 = verify_loop fuel trap_value 96 27) by reflexivity.
  rewrite E. exact IH.
Qed.
Lemma trap_hangs fuel : verify_loop fuel trap_value 96 0 = VHang.
Proof.
  do 4 (destruct fuel as [|fuel]; [reflexivity|]).
  assert (E : verify_loop (S (S (S (S fuel)))) trap_value 96 0 = verify_loop fuel trap_value 96 27) by reflexivity.
  rewrite E. apply trap_here.
Qed.
