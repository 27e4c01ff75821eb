(* What the access-path properties mean, stated without the planner's helpers. *)
From Coq Require Import List ZArith Sorted.
From Verif Require Import Common.Bytes Common.KV Key.Model Key.Spec Like.Model Like.Spec Path.Model.
From Verif Require Expr.Value.
Import ListNotations.
Local Open Scope Z_scope.

(* ---- the meaning of the conditions ---- *)

Definition test (o : cmpop) (c : comparison) : bool :=
  match o, c with
  | OEq, Eq | ONe, (Lt | Gt) | OLt, Lt | OLe, (Lt | Eq) | OGt, Gt | OGe, (Gt | Eq) => true
  | _, _ => false
  end.
(* x op y is TRUE; it is NULL if one of them is NULL *)
Definition cmp_true (t : coltype) (o : cmpop) (x y : option value) : bool :=
  match x, y with Some v, Some w => test o (value_compare t v w) | _, _ => false end.

(* (x1, x2, ...) op (y1, y2, ...) for <, <=, >, >=: the first pair that is not equal decides;
   a pair with a NULL that is reached makes it NULL *)
Fixpoint row_order (ts : list coltype) (o : cmpop) (xs ys : list (option value)) : bool :=
  match ts, xs, ys with
  | t :: ts', Some v :: xs', Some w :: ys' =>
      match value_compare t v w with
      | Eq => row_order ts' o xs' ys'
      | c => test o c
      end
  | _ :: _, _, _ => false
  | [], _, _ => test o Eq
  end.
Fixpoint row_equal (ts : list coltype) (xs ys : list (option value)) : bool :=
  match ts, xs, ys with
  | t :: ts', x :: xs', y :: ys' => cmp_true t OEq x y && row_equal ts' xs' ys'
  | [], _, _ => true
  | _, _, _ => false
  end.
Fixpoint row_differs (ts : list coltype) (xs ys : list (option value)) : bool :=
  match ts, xs, ys with
  | t :: ts', x :: xs', y :: ys' => cmp_true t ONe x y || row_differs ts' xs' ys'
  | _, _, _ => false
  end.

Section Holds.
Variable E : env.
(* the text LIKE sees: numbers are written in decimal *)
Definition text (v : value) : list Z := match v with VStr s => s | VNum z => Expr.Value.to_string z end.

(* the condition is TRUE for the row; [like_one] is LIKE, see C23 *)
Definition holds (r : row) (c : cond) : bool :=
  match c with
  | CCmp o f k => cmp_true (ct E f) o (r f) k
  | CIn f ks => existsb (cmp_true (ct E f) OEq (r f)) ks
  | CRow OEq fs ks => row_equal (map (ct E) fs) (map r fs) ks
  | CRow ONe fs ks => row_differs (map (ct E) fs) (map r fs) ks
  | CRow o fs ks => row_order (map (ct E) fs) o (map r fs) ks
  | CRowIn fs kss => existsb (row_equal (map (ct E) fs) (map r fs)) kss
  | CLike f (Some p) => match r f with Some v => like_one (e_cs E) (text v) p | None => false end
  | CLike f None => false
  | CMatch _ h | COther h => h r
  end.
(* the row is in the answer of SELECT ... WHERE c1 AND c2 AND ... *)
Definition selected (cs : list cond) (r : row) : bool := forallb (holds r) cs.

(* ---- what is assumed of the query ---- *)

(* constants fit the column; LIKE is used on text columns with a pattern of whole characters
   (C24 says why the others are left out); row constants compared by order have no NULL;
   full-text conditions are on columns outside the index *)
Definition const_ok (f : nat) (k : option value) : Prop := match k with Some v => value_ok (ct E f) v | None => True end.
Definition cond_ok (c : cond) : Prop :=
  match c with
  | CCmp ONe _ _ | CRow ONe _ _ | COther _ => True
  | CCmp _ f k => const_ok f k
  | CIn f ks => Forall (const_ok f) ks
  | CRow OEq fs ks => (2 <= length fs)%nat /\ NoDup fs /\ Forall2 const_ok fs ks
  | CRow _ fs ks => (2 <= length fs)%nat /\ Forall2 const_ok fs ks /\ ~ In None ks
  | CRowIn fs kss => (2 <= length fs)%nat /\ NoDup fs /\ Forall (Forall2 const_ok fs) kss
  | CLike f None => True
  | CLike f (Some p) =>
      ct E f = STRING /\ no_nul p /\ lone_escape p = false /\
      exists pc, p = concat pc /\ Forall (char_of (e_cs E)) pc /\ (e_cs E = CGbk -> forall a, ~ In [a; 92] pc)
  | CMatch f _ => ~ In f (avail E)
  end.

(* the columns a condition fixes to one of finitely many values (or compares with LIKE) *)
Definition fixes (c : cond) : list nat :=
  match c with
  | CCmp OEq f _ | CIn f _ | CLike f _ => [f]
  | CRow OEq fs _ | CRowIn fs _ => fs
  | _ => []
  end.
(* a row equality, or a row IN with one row that has no NULL *)
Definition one_row (c : cond) : Prop :=
  match c with
  | CRow OEq _ _ => True
  | CRowIn _ kss => exists a b k, kss = a ++ k :: b /\ ~ In None k /\ Forall (In None) (a ++ b)
  | _ => False
  end.
(* a row equality shares no column with another condition that fixes columns *)
Definition rows_apart (cs : list cond) : Prop :=
  forall i j c d f, nth_error cs i = Some c -> nth_error cs j = Some d -> i <> j ->
    one_row c -> In f (fixes c) -> ~ In f (fixes d).
(* LIKE with a wildcard is not used on an index column after one restricted by IN *)
Definition like_first (cs : list cond) : Prop :=
  forall pre f post p g d, avail E = pre ++ f :: post -> In (CLike f (Some p)) cs ->
    (forall s, index_for_like p <> IREqual s) ->
    In g pre -> In d cs -> match d with CIn _ _ | CRowIn _ _ => ~ In g (fixes d) | _ => True end.
(* either every column occurs once in the entries of the index, or no column is the first
   column of two row comparisons *)
Definition row_order_on (f : nat) (c : cond) : Prop :=
  match c with CRow (OLt | OLe | OGt | OGe) (g :: _) _ => g = f | _ => False end.
Definition bounds_apart (cs : list cond) : Prop :=
  NoDup (avail E) \/
  forall f i j c d, nth_error cs i = Some c -> nth_error cs j = Some d -> i <> j ->
    row_order_on f c -> ~ row_order_on f d.

Definition query_ok (cs : list cond) : Prop :=
  Forall cond_ok cs /\ rows_apart cs /\ like_first cs /\ bounds_apart cs.

(* the columns of the index are NOT NULL and hold values of their types *)
Definition index_row (r : row) : Prop := Forall (fun f => exists v, r f = Some v /\ value_ok (ct E f) v) (avail E).

(* the order of rows by a list of columns *)
Fixpoint order_of (fs : list nat) (x y : row) : comparison :=
  match fs with
  | [] => Eq
  | f :: q =>
      match x f, y f with
      | Some v, Some w => match value_compare (ct E f) v w with Eq => order_of q x y | c => c end
      | None, Some _ => Lt
      | Some _, None => Gt
      | None, None => order_of q x y
      end
  end.
End Holds.

(* ---- reading a range of keys ---- *)

(* no 24 consecutive bytes 255 *)
Definition no_ff_run (k : list Z) : Prop := ~ exists a b, k = a ++ repeat 255 24 ++ b.
Definition key_ok (k : list Z) : Prop := bytes_ok k /\ no_ff_run k.

(* a bound that is given as the front part of a key includes (closed) or excludes (open) all
   keys that start with it *)
Definition prefix_of (p k : list Z) : Prop := exists x, k = p ++ x.
Definition above (open : bool) (l k : list Z) : Prop :=
  l = [] \/ if open then bcompare l k = Lt /\ ~ prefix_of l k else bcompare l k <> Gt.
Definition below (open : bool) (r k : list Z) : Prop :=
  r = [] \/ if open then bcompare k r = Lt else bcompare k r <> Gt \/ prefix_of r k.
Definition in_region (region : option (list Z * list Z)) (k : list Z) : Prop :=
  match region with
  | None => True
  | Some (s, e) => bcompare s k <> Gt /\ (e = [] \/ bcompare k e = Lt)
  end.
Definition key_sorted {A} (key : A -> list Z) (l : list A) : Prop :=
  StronglySorted (fun x y => bcompare (key x) (key y) = Lt) l.

(* ---- the answer of a query ---- *)

(* the entries of the index: distinct keys in order *)
Definition entries_ok (E : env) (l : list row) : Prop :=
  key_sorted (entry_key E) l /\ Forall (fun r => index_row E r /\ key_ok (entry_key E r)) l.

(* what the storage returns for a plan: the rows of all its ranges that pass the conditions
   which are left *)
Definition answer (E : env) (cs : list cond) (p : plan) (region : option (list Z * list Z)) (forward : bool) (l : list row) : list row :=
  filter (selected E (remaining 0 cs (p_cut p))) (flat_map (read_range E p region forward l) (p_ranges p)).
