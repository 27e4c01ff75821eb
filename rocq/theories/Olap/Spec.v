(* What a pre-aggregated row should hold. *)
From Coq Require Import ZArith List Bool Permutation.
From Verif Require Import Olap.Model.
Import ListNotations.
Local Open Scope Z_scope.

(* the sum of the non-NULL values *)
Definition val (x : option Z) : Z := match x with Some v => v | None => 0 end.
Definition total (xs : list (option Z)) : Z := fold_right (fun x s => val x + s) 0 xs.

(* the range of a column *)
Definition in_range (k : kind) (z : Z) : Prop :=
  match k with
  | I32 => -2147483648 <= z < 2147483648
  | U32 => 0 <= z < 4294967296
  | I64 => -9223372036854775808 <= z < 9223372036854775808
  | U64 => 0 <= z < 18446744073709551616
  end.
Definition modulus (k : kind) : Z := match k with I32 | U32 => 4294967296 | I64 | U64 => 18446744073709551616 end.

(* A column to sum read from a base row and deltas: NULL if all are NULL, else the value of its
   type that equals the sum modulo the size of the type. *)
Definition is_sum (k : kind) (xs : list (option Z)) (x : option Z) : Prop :=
  match x with
  | None => Forall (fun y => y = None) xs
  | Some v => Exists (fun y => y <> None) xs /\ in_range k v /\ (v - total xs) mod modulus k = 0
  end.

(* Versioned tables: a delta counts when its version is newer than all before it, or while
   versions are not in use (both 0). *)
Inductive counted (vi : Z) : Z -> list row -> list row -> Prop :=
| ct_nil bv : counted vi bv [] []
| ct_new bv o v ops l : o vi = Some v -> v > bv \/ (v = 0 /\ bv = 0) -> counted vi v ops l -> counted vi bv (o :: ops) (o :: l)
| ct_old bv o v ops l : o vi = Some v -> v <= bv -> ~ (v = 0 /\ bv = 0) -> counted vi bv ops l -> counted vi bv (o :: ops) l.

(* a schema: columns to sum are distinct and the version is not one of them *)
Definition table_ok (t : table) : Prop :=
  NoDup (map sf_idx (t_sums t)) /\
  match t_version t with Some vi => ~ In vi (map sf_idx (t_sums t)) | None => True end.

(* a row of the table: values within their columns' types, version present *)
Definition row_ok (t : table) (r : row) : Prop :=
  (forall f v, In f (t_sums t) -> r (sf_idx f) = Some v -> in_range (sf_kind f) v) /\
  match t_version t with Some vi => r vi <> None | None => True end.

(* the rows present after a history of inserts and deletes; each delete removes a present row *)
Inductive event := Ins (r : row) | Del (r : row).
Inductive present : list event -> list row -> Prop :=
| pr_nil : present [] []
| pr_ins h l r : present h l -> present (h ++ [Ins r]) (r :: l)
| pr_del h l l' r : present h l -> Permutation l (r :: l') -> present (h ++ [Del r]) l'.
