(* What row expiry (TTL) means, stated without the storage format.

   A table is a finite map from the keys of its entries (rows and index entries) to a value and
   an optional expiry time.  Nothing here refers to the model of the code. *)
From Verif Require Import Common.Bytes.
Local Open Scope Z_scope.

(* ---- finite maps as association lists ---- *)

Inductive kind := Primary | NonUnique | Unique.
(* index kind and key bytes, the latter with the index id in front *)
Definition ekey := (kind * list Z)%type.
Definition ekey_dec (a b : ekey) : {a = b} + {a <> b}.
Proof. repeat decide equality. Defined.

Section Map.
Context {V : Type}.
Fixpoint find (m : list (ekey * V)) (k : ekey) : option V :=
  match m with [] => None | (k', v) :: m' => if ekey_dec k k' then Some v else find m' k end.
Fixpoint set (m : list (ekey * V)) (k : ekey) (v : V) : list (ekey * V) :=
  match m with
  | [] => [(k, v)]
  | (k', v') :: m' => if ekey_dec k k' then (k, v) :: m' else (k', v') :: set m' k v
  end.
Fixpoint unset (m : list (ekey * V)) (k : ekey) : list (ekey * V) :=
  match m with
  | [] => []
  | (k', v') :: m' => if ekey_dec k k' then unset m' k else (k', v') :: unset m' k
  end.
End Map.

(* ---- the table ---- *)

(* the value and the last microsecond at which it is there; None: for ever *)
Definition table := list (ekey * (list Z * option Z)).

Definition alive (now : Z) (e : option Z) : bool :=
  match e with None => true | Some t => now <=? t end.

Inductive seen := Absent | Gone | There (value : list Z) (expiry : option Z).

(* what a reader at time [now] finds under a key *)
Definition look (t : table) (now : Z) (k : ekey) : seen :=
  match find t k with
  | None => Absent
  | Some (v, e) => if alive now e then There v e else Gone
  end.

(* what a reader at time [now] finds under the keys selected by [sel] *)
Definition look_all (t : table) (now : Z) (sel : ekey -> bool) : list (ekey * list Z) :=
  map (fun x => (fst x, fst (snd x)))
      (filter (fun x => sel (fst x) && alive now (snd (snd x))) t).

(* ---- histories ---- *)

Inductive op :=
| Write (k : ekey) (v : list Z) (expiry : Z)   (* ignored expiry while the table has no TTL *)
| Remove (k : ekey)
| Turn_on (base : Z).                          (* give a table without TTL one: what is there now
                                                  expires at [base] *)

(* the table and whether it has a TTL *)
Definition step (s : bool * table) (o : op) : bool * table :=
  let '(ttl, t) := s in
  match o with
  | Write k v e => (ttl, set t k (v, if ttl then Some e else None))
  | Remove k => (ttl, unset t k)
  | Turn_on base =>
      if ttl then s
      else (true, map (fun x => (fst x, (fst (snd x), Some base))) t)
  end.

(* ---- statements ---- *)

(* What a statement asks for: the TTL of its hint in seconds (0: none given, -1: keep the expiry
   of a row that is changed) *)
Inductive on_duplicate := Dup_error | Dup_ignore | Dup_update (f : list Z -> list Z) | Dup_replace.
Inductive statement :=
| Update (keys : list ekey) (f : list Z -> list Z)
| Insert (rows : list (ekey * list Z)) (mode : on_duplicate).

(* Expiry of what a statement writes at time [now]: the hint's TTL if positive, else the table's *)
Definition fresh (now hint duration : Z) : Z :=
  now + (if 0 <? hint then hint else duration) * 1000000.

Definition change (now hint duration : Z) (t : table) (k : ekey) (v : list Z) (old : option Z) : table :=
  set t k (v, if hint =? -1 then old else Some (fresh now hint duration)).

(* None: a duplicate key; the statement is undone.  The reader's clock is [begin], the time the
   transaction began. *)
Definition insert_one (begin now hint duration : Z) (mode : on_duplicate) (t : table) (r : ekey * list Z)
  : option table :=
  let add := Some (set t (fst r) (snd r, Some (fresh now hint duration))) in
  match look t begin (fst r) with
  | There v e =>
      match mode with
      | Dup_error => None
      | Dup_ignore => Some t
      | Dup_update f => Some (change now hint duration t (fst r) (f v) e)
      | Dup_replace => add
      end
  | _ => add
  end.

Definition update_one (begin now hint duration : Z) (f : list Z -> list Z) (t : table) (k : ekey) : table :=
  match look t begin k with
  | There v e => change now hint duration t k (f v) e
  | _ => t
  end.

Fixpoint insert_all (begin now hint duration : Z) (mode : on_duplicate) (rows : list (ekey * list Z)) (t : table)
  : option table :=
  match rows with
  | [] => Some t
  | r :: rows' =>
      match insert_one begin now hint duration mode t r with
      | None => None
      | Some t' => insert_all begin now hint duration mode rows' t'
      end
  end.

Definition run_statement (begin now hint duration : Z) (s : statement) (t : table) : option table :=
  match s with
  | Update keys f => Some (fold_left (update_one begin now hint duration f) keys t)
  | Insert rows mode => insert_all begin now hint duration mode rows t
  end.

(* ---- the bytes of a row: a protobuf message ---- *)

Inductive wire := Varint (v : Z) | Fixed64 (b : list Z) | Bytes (s : list Z) | Fixed32 (b : list Z).

Fixpoint varint_bytes (n : nat) (v : Z) : list Z :=
  match n with
  | O => []
  | S n' => if v <? 128 then [v] else (v mod 128 + 128) :: varint_bytes n' (v / 128)
  end.
(* at most 10 groups of 7 bits *)
Definition varint (v : Z) : list Z := varint_bytes 10 v.

Definition field_bytes (f : Z * wire) : list Z :=
  match snd f with
  | Varint v => varint (fst f * 8 + 0) ++ varint v
  | Fixed64 b => varint (fst f * 8 + 1) ++ b
  | Bytes s => varint (fst f * 8 + 2) ++ varint (Z.of_nat (length s)) ++ s
  | Fixed32 b => varint (fst f * 8 + 5) ++ b
  end.
Definition row_bytes (fs : list (Z * wire)) : list Z := flat_map field_bytes fs.

Definition wire_ok (w : wire) : Prop :=
  match w with
  | Varint v => 0 <= v < 2 ^ 64
  | Fixed64 b => length b = 8%nat /\ bytes_ok b
  | Bytes s => bytes_ok s
  | Fixed32 b => length b = 4%nat /\ bytes_ok b
  end.
(* a row of a table whose columns are numbered from 1 to [max] *)
Definition is_row (max : Z) (v : list Z) : Prop :=
  Z.of_nat (length v) < 2 ^ 63 /\
  exists fs, Forall (fun f => 1 <= fst f <= max /\ wire_ok (snd f)) fs /\ v = row_bytes fs.

(* ---- what the theorems about a table that got its TTL later assume ---- *)

(* from December 2020 to November 2120, in microseconds *)
Definition plausible (t : Z) : Prop := 1608336000000000 < t < 4761936000000000.
(* the value starts with a plausible time: 8 bytes, big-endian, with the sign bit flipped *)
Definition starts_like_time (v : list Z) : Prop :=
  exists t rest, plausible t /\ v = be_bytes 8 (t + 2 ^ 63) ++ rest.
(* a row of a table with fewer than 80 columns ever; the empty value of a non-unique index; the
   primary key under a unique index, unless it starts like a time *)
Definition clear_value (max : Z) (k : ekey) (v : list Z) : Prop :=
  match fst k with
  | Primary => max < 80 /\ is_row max v
  | NonUnique => v = []
  | Unique => bytes_ok v /\ ~ starts_like_time v
  end.
