(* The vocabulary that connects the model with Spec.v, used in the statements of
   PropertiesTtl.v. *)
From Verif Require Import Common.Bytes Key.Model Ttl.Spec Ttl.Model.
Local Open Scope Z_scope.

(* a positive int64 *)
Definition i64_time (t : Z) : Prop := 0 < t < 2 ^ 63.

(* what the code answers for what the reader should see; the time of a value that lives for ever
   is reported as 0 *)
Definition answer (x : seen) : got :=
  match x with
  | Absent => NotFound
  | Gone => Expired
  | There v (Some e) => Row v e
  | There v None => Row v 0
  end.

Definition empty_region (ttl : bool) : region := {| rg_use := ttl; rg_base := 0; rg_kv := [] |}.

(* every reader finds in [g] what is in [t] *)
Definition reads_as (big : bool) (max : Z) (g : region) (t : table) : Prop :=
  forall now, 0 < now ->
    (forall k, get_update big max g now k = answer (look t now k)) /\
    (forall sel, scan big max (rg_use g) (rg_base g) now sel (rg_kv g) = Rows (look_all t now sel)).

(* ---- conditions on histories and statements ---- *)

(* table created with TTL *)
Definition created_fine (o : op) : Prop := match o with Write _ _ e => i64_time e | _ => True end.

(* table that may get its TTL later; [ttl]: whether it has one by now *)
Fixpoint history_fine (max : Z) (ttl : bool) (ops : list op) : Prop :=
  match ops with
  | [] => True
  | Write k v e :: ops' => (ttl = true -> plausible e) /\ clear_value max k v /\ history_fine max ttl ops'
  | Remove _ :: ops' => history_fine max ttl ops'
  | Turn_on base :: ops' => i64_time base /\ history_fine max true ops'
  end.

(* A value the table can store: any on a table created with TTL (base 0) *)
Definition fine (max base : Z) (k : ekey) (v : list Z) : Prop := base = 0 \/ clear_value max k v.

(* the hint to keep the expiry is not combined with ON DUPLICATE KEY UPDATE; changed values can
   be stored again *)
Definition mode_fine (max base hint : Z) (mode : on_duplicate) (k : ekey) : Prop :=
  match mode with
  | Dup_update f => hint <> -1 /\ forall v, fine max base k v -> fine max base k (f v)
  | _ => True
  end.

Definition statement_fine (max base hint : Z) (s : statement) : Prop :=
  match s with
  | Update keys f => forall k v, In k keys -> fine max base k v -> fine max base k (f v)
  | Insert rows mode => forall k v, In (k, v) rows -> fine max base k v /\ mode_fine max base hint mode k
  end.

