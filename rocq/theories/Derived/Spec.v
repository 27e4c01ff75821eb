(* What SELECT over derived tables, SELECT DISTINCT and UNION mean, written from the SQL manual and
   not from the code: a derived table is the list of rows its query returns, WHERE keeps the rows on
   which every condition is true, GROUP BY makes one row per key, DISTINCT keeps the first of equal
   result rows, UNION is evaluated from left to right.  Where SQL leaves an order open the order of
   first appearance is taken. *)
From Coq Require Import List ZArith Bool Arith.
Import ListNotations.

(* A value: NULL or a number (strings, dates and types are not distinguished here). *)
Inductive val := VNull | VInt (z : Z).

Definition val_eq_dec : forall a b : val, {a = b} + {a <> b}.
Proof. decide equality. apply Z.eq_dec. Defined.
Definition key_eq_dec := list_eq_dec val_eq_dec.
Definition key_eqb (a b : list val) : bool := if key_eq_dec a b then true else false.

(* The rows a query block works on: the columns of the tables in FROM, found by table and column
   number, and behind them the values of the aggregates and of the window functions. *)
Record row := Row { cells : nat -> nat -> val; aggs : list val; wins : list val }.

(* An expression.  [EFn] applies any deterministic function (comparison, arithmetic, AND, ...). *)
Inductive expr :=
| ERef (t s : nat)
| ELit (v : val)
| EFn (f : list val -> val) (args : list expr)
| EAgg (i : nat)
| EWin (i : nat).

Fixpoint eval (r : row) (e : expr) : val :=
  match e with
  | ERef t s => cells r t s
  | ELit v => v
  | EFn f args => f (map (eval r) args)
  | EAgg i => nth i (aggs r) VNull
  | EWin i => nth i (wins r) VNull
  end.

(* NULL and 0 are not true. *)
Definition true_val (v : val) : bool :=
  match v with VNull => false | VInt z => negb (z =? 0)%Z end.

Definition satisfies (r : row) (es : list expr) : bool := forallb (fun e => true_val (eval r e)) es.

(* The first of equal elements. *)
Fixpoint distinct (l : list (list val)) : list (list val) :=
  match l with
  | [] => []
  | x :: rest => x :: filter (fun y => negb (key_eqb x y)) (distinct rest)
  end.

(* The groups of the rows that share a key, in the order in which the keys come up. *)
Definition groups (key : row -> list val) (rows : list row) : list (list row) :=
  map (fun k => filter (fun r => key_eqb (key r) k) rows) (distinct (map key rows)).

(* A window function: the PARTITION BY expressions, and for the rows of a partition the list of
   (which row, its value). *)
Record window := Win { w_part : list expr; w_fn : list row -> list (nat * val) }.

(* ORDER BY: stable, NULL first when ascending. *)
Definition val_le (a b : val) : bool :=
  match a, b with
  | VNull, _ => true
  | VInt _, VNull => false
  | VInt x, VInt y => (x <=? y)%Z
  end.

Fixpoint keys_le (a b : list (val * bool)) : bool :=
  match a, b with
  | (x, asc) :: a', (y, _) :: b' =>
      let xy := if asc then val_le x y else val_le y x in
      let yx := if asc then val_le y x else val_le x y in
      if xy && yx then keys_le a' b' else xy
  | _, _ => true
  end.

Section Sorting.
  Context {A : Type} (le : A -> A -> bool).
  Fixpoint insert (x : A) (l : list A) : list A :=
    match l with
    | [] => [x]
    | y :: rest => if le x y then x :: l else y :: insert x rest
    end.
  Definition sort (l : list A) : list A := fold_right insert [] l.
End Sorting.

Definition order_row (order : list (expr * bool)) (r : row) : list (val * bool) :=
  map (fun o => (eval r (fst o), snd o)) order.
Definition sort_rows (order : list (expr * bool)) : list row -> list row :=
  sort (fun a b => keys_le (order_row order a) (order_row order b)).

(* LIMIT offset, count *)
Definition cut {A} (limit : option (nat * nat)) (l : list A) : list A :=
  match limit with None => l | Some (off, cnt) => firstn cnt (skipn off l) end.

(* The clauses of one SELECT. *)
Record sel := Sel {
  s_distinct : bool;
  s_where : list expr;
  s_group : list expr;
  s_aggs : list (list row -> val);      (* the aggregates, each a function of the rows of the group *)
  s_dargs : list expr;                  (* the arguments of the aggregates with DISTINCT *)
  s_having : list expr;
  s_wins : list window;
  s_order : list (expr * bool);
  s_limit : option (nat * nat);
  s_proj : list expr                    (* the select list *)
}.

(* A statement.  A derived table stands in FROM with a table number; its column [s] is
   [ERef t s].  UNION: the first SELECT, then each further one with true for UNION [DISTINCT] and false for
   UNION ALL; the names of the columns, the ORDER BY columns by name, LIMIT. *)
Inductive stmt :=
| Select (src : source) (d : sel)
| Union (first : stmt) (rest : list (bool * stmt))
        (names : list nat) (order : list (nat * bool)) (limit : option (nat * nat))
with source :=
| Table (rows : list (nat -> nat -> val))
| Derived (t : nat) (q : stmt).

(* A result row as a row of the derived table number [t]. *)
Definition as_row (t : nat) (vs : list val) : row :=
  Row (fun t' s => if t' =? t then nth s vs VNull else VNull) [] [].

Definition table_row (c : nat -> nat -> val) : row := Row c [] [].

Definition null_row : row := Row (fun _ _ => VNull) [] [].

(* Does the SELECT aggregate? *)
Definition aggregates (d : sel) : bool :=
  match s_group d, s_aggs d with [], [] => false | _, _ => true end.

(* One row for a group: the columns of its first row and the aggregates over it. *)
Definition group_row (fs : list (list row -> val)) (g : list row) : row :=
  Row (cells (hd null_row g)) (map (fun f => f g) fs) [].

Definition grouped (d : sel) (rows : list row) : list row :=
  if aggregates d then
    match s_group d with
    | [] => [group_row (s_aggs d) rows]
    | gs => map (group_row (s_aggs d)) (groups (fun r => map (eval r) gs) rows)
    end
  else rows.

(* A window function gives each row one more value; all rows stay. *)
Definition add_win (r : row) (v : val) : row := Row (cells r) (aggs r) (wins r ++ [v]).
Definition windowed (rows : list row) (w : window) : list row :=
  concat (map (fun p => map (fun iv => add_win (nth (fst iv) p null_row) (snd iv))
                            (filter (fun iv => fst iv <? length p) (w_fn w p)))
              (groups (fun r => map (eval r) (w_part w)) rows)).

(* The rows of a SELECT, given the rows of its FROM. *)
Definition sel_rows (d : sel) (rows : list row) : list row :=
  fold_left windowed (s_wins d)
    (filter (fun r => satisfies r (s_having d))
       (grouped d (filter (fun r => satisfies r (s_where d)) rows))).

(* ORDER BY and LIMIT come after DISTINCT; an ORDER BY expression of a SELECT DISTINCT is taken on the
   first of the equal rows. *)
Definition sel_result (d : sel) (rows : list row) : list (list val) :=
  let out r := map (eval r) (s_proj d) in
  let all := sel_rows d rows in
  let kept := if s_distinct d then map (hd null_row) (groups out all) else all in
  map out (cut (s_limit d) (sort_rows (s_order d) kept)).

(* Where a column name stands. *)
Fixpoint position (n : nat) (names : list nat) : option nat :=
  match names with
  | [] => None
  | m :: rest => if n =? m then Some 0 else option_map S (position n rest)
  end.

Definition order_vals (names : list nat) (order : list (nat * bool)) (vs : list val) : list (val * bool) :=
  map (fun o => (match position (fst o) names with Some i => nth i vs VNull | None => VNull end, snd o)) order.

(* The answer of a statement. *)
Fixpoint meaning (q : stmt) : list (list val) :=
  match q with
  | Select src d => sel_result d (source_rows src)
  | Union first rest names order limit =>
      let all := fold_left (fun acc (x : bool * stmt) =>
                   let both := acc ++ meaning (snd x) in if fst x then distinct both else both)
                   rest (meaning first) in
      cut limit (sort (fun a b => keys_le (order_vals names order a) (order_vals names order b)) all)
  end
with source_rows (s : source) : list row :=
  match s with
  | Table rows => map table_row rows
  | Derived t q => map (as_row t) (meaning q)
  end.

(* ---------- what the statements in the theorems are like ---------- *)

(* The columns an expression names; whether it contains an aggregate or a window function. *)
Fixpoint columns (e : expr) : list (nat * nat) :=
  match e with
  | ERef t s => [(t, s)]
  | EFn _ args => concat (map columns args)
  | _ => []
  end.
Fixpoint computed (e : expr) : bool :=
  match e with
  | EAgg _ | EWin _ => true
  | EFn _ args => existsb computed args
  | _ => false
  end.

(* Every SELECT of a statement, and every SELECT but the outermost. *)
Fixpoint all_selects (P : sel -> Prop) (q : stmt) : Prop :=
  match q with
  | Select src d => P d /\ source_selects P src
  | Union first rest _ _ _ =>
      all_selects P first /\ fold_right and True (map (fun x : bool * stmt => all_selects P (snd x)) rest)
  end
with source_selects (P : sel -> Prop) (s : source) : Prop :=
  match s with
  | Table _ => True
  | Derived _ q => all_selects P q
  end.
Definition inner_selects (P : sel -> Prop) (q : stmt) : Prop :=
  match q with
  | Select src d => source_selects P src
  | Union _ _ _ _ _ => all_selects P q
  end.

(* Every UNION of a statement. *)
Fixpoint all_unions (P : list bool -> list nat -> Prop) (q : stmt) : Prop :=
  match q with
  | Select src d => source_unions P src
  | Union first rest names order limit =>
      P (map fst rest) names /\ all_unions P first /\
      fold_right and True (map (fun x : bool * stmt => all_unions P (snd x)) rest)
  end
with source_unions (P : list bool -> list nat -> Prop) (s : source) : Prop :=
  match s with
  | Table _ => True
  | Derived _ q => all_unions P q
  end.

(* No condition in WHERE is just the name of a column. *)
Definition no_bare_condition (d : sel) : Prop :=
  forall e, In e (s_where d) -> match e with ERef _ _ => False | _ => True end.
(* A SELECT with aggregates and without GROUP BY has no constants in its select list. *)
Definition no_constant_beside_total (d : sel) : Prop :=
  s_group d = [] -> s_aggs d <> [] ->
  forall x, In x (s_proj d) -> computed x = false -> columns x <> [].
(* Beside an aggregate with DISTINCT only columns of GROUP BY are selected (as sql_mode
   ONLY_FULL_GROUP_BY demands). *)
Definition full_group_by (d : sel) : Prop :=
  s_dargs d <> [] -> forall x, In x (s_proj d) -> computed x = false ->
  forall t s, In (t, s) (columns x) -> In (ERef t s) (s_group d).
(* SELECT DISTINCT has no window functions, and its HAVING is about selected columns. *)
Definition plain_distinct (d : sel) : Prop :=
  s_distinct d = true ->
  s_wins d = [] /\
  forall e, In e (s_having d) -> s_aggs d = [] -> computed e = false /\
    forall t s, In (t, s) (columns e) -> In (ERef t s) (s_proj d).
(* After UNION [DISTINCT] no UNION ALL follows; the names of the columns differ. *)
Definition plain_union (ops : list bool) (names : list nat) : Prop :=
  (Forall (fun b => b = false) ops \/ exists ops', ops = ops' ++ [true]) /\ NoDup names.

(* A statement that can be planned: select lists are not empty, no SELECT DISTINCT ... GROUP BY,
   the branches of a UNION have as many columns as it has names, ORDER BY names one of them. *)
Fixpoint arity (q : stmt) : nat :=
  match q with
  | Select _ d => length (s_proj d)
  | Union first _ _ _ _ => arity first
  end.
Fixpoint well_formed (q : stmt) : Prop :=
  match q with
  | Select src d => s_proj d <> [] /\ (s_distinct d = true -> s_group d = []) /\
      match src with Table _ => True | Derived _ q' => well_formed q' end
  | Union first rest names order _ =>
      well_formed first /\ length names = arity first /\
      (forall n asc, In (n, asc) order -> In n names) /\
      fold_right and True (map (fun x : bool * stmt => well_formed (snd x) /\ arity (snd x) = arity first) rest)
  end.

(* The SELECT without DISTINCT, ORDER BY and LIMIT. *)
Definition bare_select (d : sel) : sel :=
  Sel false (s_where d) (s_group d) (s_aggs d) (s_dargs d) (s_having d) (s_wins d) [] None (s_proj d).
