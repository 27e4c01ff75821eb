(* What statements write expires when it should. *)
From Verif Require Import Common.Bytes Key.Model Split.Model Ttl.Spec Ttl.Model Ttl.Claims Ttl.Proofs.
Local Open Scope Z_scope.

(* times and values that the table can store: any on a table created with TTL *)
Definition storable (max base : Z) (t : Z) (k : ekey) (v : list Z) : Prop :=
  i64_time t /\ (base = 0 \/ plausible t /\ clear_value max k v).

(* every value and every expiry in the table can be stored again *)
Definition all_storable (max base : Z) (t : table) : Prop :=
  Forall (fun x => match snd (snd x) with Some e => storable max base e (fst x) (fst (snd x)) | None => False end) t.

Lemma find_storable max base t k v e : all_storable max base t -> find t k = Some (v, e) ->
  exists x, e = Some x /\ storable max base x k v.
Proof.
  induction 1 as [|[k' [v' e']] t H F IH]; cbn [find]; [discriminate|]. destruct (ekey_dec k k') as [->|N]; [|exact IH].
  intros E. injection E as -> ->. cbn [fst snd] in H. destruct e as [x|]; [|contradiction]. exists x. split; [reflexivity|exact H].
Qed.
Lemma set_storable max base t k v e : all_storable max base t -> storable max base e k v ->
  all_storable max base (set t k (v, Some e)).
Proof.
  intros F H. induction F as [|[k' [v' e']] t H' F IH]; cbn [set].
  - constructor; [exact H|constructor].
  - destruct (ekey_dec k k') as [->|N]; constructor; assumption.
Qed.

Section Run.
Variables (big : bool) (max base begin now hint duration : Z).
Hypothesis Hmax : max < 2 ^ 31.
Hypothesis Hbegin : 0 < begin.
Hypothesis Hnow : begin <= now.
Hypothesis Hdur : 0 < duration.
Hypothesis Hts : i64_time (fresh now hint duration) /\ (base = 0 \/ plausible (fresh now hint duration)).

Definition inv (g : region) (t : table) : Prop :=
  repr big max g (true, t) /\ rg_base g = base /\ all_storable max base t.

Lemma init_fresh : init_ttl_timestamp now hint duration = Some (fresh now hint duration).
Proof.
  unfold init_ttl_timestamp, fresh. destruct Hts as [H _]. unfold i64_time, fresh in H.
  replace (0 <? (if 0 <? hint then hint else duration)) with true by (destruct (Z.ltb_spec 0 hint); lia).
  replace (now + (if 0 <? hint then hint else duration) * 1000 * 1000) with (now + (if 0 <? hint then hint else duration) * 1000000) by lia.
  replace (_ <? 2 ^ 63) with true by lia. reflexivity.
Qed.

Notation fine := (Claims.fine max base).
Notation mode_fine := (Claims.mode_fine max base hint).
Lemma fresh_storable k v : fine k v -> storable max base (fresh now hint duration) k v.
Proof. intros Hf. destruct Hts as [A B]. split; [exact A|]. destruct B as [B|B], Hf as [F|F]; auto. Qed.

Lemma put_inv g t k v e : inv g t -> storable max base e k v ->
  inv (put_kv big g k v e) (set t k (v, Some e)).
Proof.
  intros (R & Hb & A) [Ht Hs]. split; [|split].
  - destruct R as [U F]. cbn [fst] in U. apply (put_repr big max g (true, t) k v e (conj U F) (fun _ => Ht)).
    + intros _. rewrite Hb. exact Hs.
    + rewrite U. discriminate.
  - exact Hb.
  - apply set_storable; [exact A|split; assumption].
Qed.

(* UPDATE *)
Lemma update_row_inv f g t ts k : (forall v, fine k v -> fine k (f v)) -> inv g t ->
  0 < ts -> (hint <> -1 -> ts = fresh now hint duration) ->
  exists g' ts', update_row big max begin hint f g ts k = Run g' ts' /\
    inv g' (update_one begin now hint duration f t k) /\ 0 < ts' /\ (hint <> -1 -> ts' = fresh now hint duration).
Proof.
  intros Hf I0 Hts0 Hk. pose proof I0 as (R & Hb & A). unfold update_row, update_one.
  rewrite (get_repr big max g (true, t) begin k Hmax R Hbegin). cbn [snd]. unfold look.
  destruct (find t k) as [[v e]|] eqn:E; [|cbn [answer]; exists g, ts; exact (conj eq_refl (conj I0 (conj Hts0 Hk)))].
  destruct (find_storable max base t k v e A E) as (x & -> & Hx).
  destruct (alive begin (Some x)) eqn:L; cbn [answer]; [|exists g, ts; exact (conj eq_refl (conj I0 (conj Hts0 Hk)))].
  assert (Fv : fine k (f v)). { apply Hf. destruct Hx as [_ [B|[_ C]]]; [left; exact B|right; exact C]. }
  pose proof Hx as [Hx1 Hx2]. unfold i64_time in Hx1. unfold change.
  replace (0 <? ts) with true by lia. replace (0 <? x) with true by lia. rewrite !andb_true_r.
  destruct (Z.eqb_spec hint (-1)) as [Eh|Eh].
  - exists (put_kv big g k (f v) x), x. split; [reflexivity|]. split; [|split; [lia|contradiction]].
    apply put_inv; [exact I0|]. split; [exact Hx1|]. destruct Hx2 as [B|[P _]]; [left; exact B|].
    destruct Fv as [B|C]; [left; exact B|right; split; assumption].
  - exists (put_kv big g k (f v) ts), ts. split; [reflexivity|]. split; [|split; assumption].
    rewrite (Hk Eh). apply put_inv; [exact I0|apply fresh_storable; exact Fv].
Qed.

Lemma update_loop f keys : (forall k v, In k keys -> fine k v -> fine k (f v)) -> forall g t ts, inv g t ->
  0 < ts -> (hint <> -1 -> ts = fresh now hint duration) ->
  exists g' ts', dml_loop (update_row big max begin hint f) keys g ts = Run g' ts' /\
    inv g' (fold_left (update_one begin now hint duration f) keys t).
Proof.
  induction keys as [|k keys IH]; intros Hf g t ts I0 H0 Hk; cbn [dml_loop fold_left].
  - exists g, ts. split; [reflexivity|exact I0].
  - destruct (update_row_inv f g t ts k (fun v => Hf k v (or_introl eq_refl)) I0 H0 Hk) as (g1 & ts1 & -> & I1 & H1 & Hk1).
    apply IH; try assumption. intros k' v' Hin. apply Hf. right. exact Hin.
Qed.

(* INSERT: without the keep hint on ON DUPLICATE KEY UPDATE the node's time stays as it was *)
Lemma insert_loop mode rows : (forall k v, In (k, v) rows -> fine k v /\ mode_fine mode k) -> forall g t, inv g t ->
  match insert_all begin now hint duration mode rows t with
  | Some t' => exists g', dml_loop (insert_row big max begin hint mode) rows g (fresh now hint duration) = Run g' (fresh now hint duration) /\ inv g' t'
  | None => dml_loop (insert_row big max begin hint mode) rows g (fresh now hint duration) = Fails
  end.
Proof.
  induction rows as [|[k v] rows IH]; intros Hr g t I0; cbn [dml_loop insert_all].
  - exists g. split; [reflexivity|exact I0].
  - destruct (Hr k v (or_introl eq_refl)) as [Hv Hm].
    assert (Hr' : forall k0 v0, In (k0, v0) rows -> fine k0 v0 /\ mode_fine mode k0) by (intros k0 v0 Hi; apply Hr; right; exact Hi).
    specialize (IH Hr'). pose proof I0 as (R & Hb & A).
    pose proof (put_inv g t k v _ I0 (fresh_storable k v Hv)) as Iadd.
    unfold insert_row, insert_one. cbn [fst snd].
    rewrite (get_repr big max g (true, t) begin k Hmax R Hbegin). cbn [snd]. unfold look.
    destruct (find t k) as [[v0 e]|] eqn:E; [|cbn [answer]; exact (IH _ _ Iadd)].
    destruct (find_storable max base t k v0 e A E) as (x & -> & Hx).
    destruct (alive begin (Some x)) eqn:L; cbn [answer]; [|exact (IH _ _ Iadd)].
    destruct mode as [| |f|].
    + reflexivity.
    + exact (IH _ _ I0).
    + cbn [Claims.mode_fine] in Hm. destruct Hm as [Hh Hf].
      assert (H0 : 0 < fresh now hint duration) by (destruct Hts as [H _]; unfold i64_time in H; lia).
      destruct (update_row_inv f g t (fresh now hint duration) k Hf I0 H0 (fun _ => eq_refl)) as (g1 & ts1 & -> & I1 & H1 & Hk1).
      rewrite (Hk1 Hh). unfold update_one, look in I1. rewrite E, L in I1. exact (IH _ _ I1).
    + exact (IH _ _ Iadd).
Qed.
End Run.
