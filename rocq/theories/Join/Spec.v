(* What a join is, without the nodes that compute it. *)
From Coq Require Import List ZArith Bool Arith Sorting.Permutation.
From Verif Require Import Common.Bytes Key.Model Key.Spec Join.Model.
Import ListNotations.
Local Open Scope Z_scope.

(* The row made of a row of the tables [L] and a row of the tables [R]; tables of neither are
   NULL.  [alone]: the other side is all NULL. *)
Definition glue (n : nat) (L R : list nat) (l r : row) : row :=
  map (fun t => if existsb (Nat.eqb t) L then nth t l None else if existsb (Nat.eqb t) R then nth t r None else None) (seq 0 n).
Definition alone (n : nat) (L : list nat) (l : row) : row := glue n L [] l [].

Section Joins.
Variables (n : nat) (L R : list nat) (on : row -> bool).
Definition partners (l : row) (rs : list row) : list row := filter (fun r => on (glue n L R l r)) rs.
Definition inner_join (ls rs : list row) : list row := flat_map (fun l => map (glue n L R l) (partners l rs)) ls.
Definition left_join (ls rs : list row) : list row :=
  flat_map (fun l => match partners l rs with [] => [alone n L l] | ps => map (glue n L R l) ps end) ls.
(* rows of the right side without a partner *)
Definition lonely (ls rs : list row) : list row :=
  filter (fun r => negb (existsb (fun l => on (glue n L R l r)) ls)) rs.
Definition full_join (ls rs : list row) : list row := left_join ls rs ++ map (alone n R) (lonely ls rs).
End Joins.
Definition right_join (n : nat) (L R : list nat) (on : row -> bool) (ls rs : list row) : list row := left_join n R L on rs ls.

(* "=": never TRUE on NULL *)
Definition equal_values (ta tb : coltype) (x y : option value) : Prop :=
  exists v w, x = Some v /\ y = Some w /\ if ctype_eqb ta tb then value_compare ta v w = Eq else v = w.
Definition side (r : row) (o : operand) : option value :=
  match o with OSlot s => get_value r (s_tuple s) (s_id s) | OExpr _ f => f r end.
Definition type_of (o : operand) : coltype := match o with OSlot s => s_type s | OExpr t _ => t end.
Definition holds (r : row) (c : jcond) : Prop :=
  match c with
  | CEq a b => equal_values (type_of a) (type_of b) (side r a) (side r b)
  | CRowEq ps => Forall (fun p => equal_values (type_of (fst p)) (type_of (snd p)) (side r (fst p)) (side r (snd p))) ps
  | CFun f => f r = Some true
  end.
(* the ON clause is TRUE *)
Definition decides (on : row -> bool) (cs : list jcond) : Prop := forall r, on r = true <-> Forall (holds r) cs.

(* ---- what is assumed ---- *)

Definition integer (t : coltype) : bool := match t with INT8 | INT16 | INT32 | INT64 | UINT8 | UINT16 | UINT32 | UINT64 => true | _ => false end.
(* column types whose values hash join compares as "=" does *)
Definition comparable (a b : coltype) : Prop := a = b \/ integer a = true /\ integer b = true.
Definition typed (s : slot) (r : row) : Prop := forall v, get_value r (s_tuple s) (s_id s) = Some v -> value_ok (s_type s) v.

(* an equality of a column of [L] and a column of [R], alone or first in a row comparison *)
Definition across (L R : list nat) (a b : operand) (l r : slot) : Prop :=
  (a = OSlot l /\ b = OSlot r \/ a = OSlot r /\ b = OSlot l) /\ In (s_tuple l) L /\ In (s_tuple r) R.
Definition join_key (L R : list nat) (cs : list jcond) (l r : slot) : Prop :=
  exists a b, across L R a b l r /\ (In (CEq a b) cs \/ exists ps, In (CRowEq ps) cs /\ In (a, b) ps).

Record rows_ok (n : nat) (L R : list nat) (cs : list jcond) (ls rs : list row) : Prop := {
  ok_apart : forall t, In t L -> ~ In t R;
  ok_small : forall t, In t L \/ In t R -> (t < n)%nat;
  ok_types : forall l r, join_key L R cs l r ->
    comparable (s_type l) (s_type r) /\ Forall (typed l) ls /\ Forall (typed r) rs }.

(* Text in a key is written up to a NUL byte and NULL as nothing: rows of the outer side with a
   NULL key are told from the others if the key columns all are text, or none is *)
Definition as_text (a b : coltype) : bool := match a with STRING => true | _ => negb (ctype_eqb a b || is_signed a && is_signed b || is_uint a && is_uint b) end.
Definition nulls_apart (L R : list nat) (cs : list jcond) (ls : list row) : Prop :=
  (forall l r, join_key L R cs l r -> as_text (s_type l) (s_type r) = true) \/
  (forall l r, join_key L R cs l r -> as_text (s_type l) (s_type r) = false) \/
  (forall l r x, join_key L R cs l r -> In x ls -> get_value x (s_tuple l) (s_id l) <> None).

(* the IN condition on the inner side lets equal values pass *)
Definition in_complete (in_eq : coltype -> coltype -> value -> value -> bool) : Prop :=
  forall a b v w, equal_values a b (Some v) (Some w) -> in_eq a b v w = true.

(* [caps] are enough calls, each with room for a row *)
Definition enough (caps : list nat) (m : nat) : Prop := (m < length caps)%nat /\ Forall (fun c => (1 <= c)%nat) caps.

(* a part of [all] with [k] rows, or all of it *)
Definition at_most (k : nat) (out all : list row) : Prop :=
  length out = Nat.min k (length all) /\ exists rest, Permutation (out ++ rest) all.

(* every ON condition is an equality of columns of the two sides, or a row of them *)
Definition only_keys (L R : list nat) (cs : list jcond) : Prop :=
  Forall (fun c => match c with
                   | CEq a b => exists l r, across L R a b l r
                   | CRowEq ps => Forall (fun p => exists l r, across L R (fst p) (snd p) l r) ps
                   | CFun _ => False
                   end) cs.
(* [i] is equal to [o] in the columns the ON clause sets equal *)
Definition agrees (L R : list nat) (cs : list jcond) (o i : row) : Prop :=
  forall a b l r, across L R a b l r -> In (CEq a b) cs -> equal_values (s_type l) (s_type r) (col o l) (col i r).
(* at most one row of [rs] is equal to a row of [ls] in these columns *)
Definition at_most_one (L R : list nat) (cs : list jcond) (ls rs : list row) : Prop :=
  forall o x i y j z, In o ls -> rs = x ++ i :: y ++ j :: z -> ~ (agrees L R cs o i /\ agrees L R cs o j).
(* the ON clause sets a column of [L] equal to a column of [R] *)
Definition has_key (L R : list nat) (cs : list jcond) : Prop := exists a b l r, across L R a b l r /\ In (CEq a b) cs.

(* a child with this limit gives that many of its rows, or all of them *)
Definition within (k : option nat) (out all : list row) : Prop :=
  match k with Some m => at_most m out all | None => Permutation out all end.
