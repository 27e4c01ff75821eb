(* The planning of SELECT over derived tables and of UNION, the pushing of WHERE conditions into the
   derived tables, and the execution of the plan. *)
From Coq Require Import List ZArith Bool Arith.
From Verif Require Import Derived.Spec.
Import ListNotations.

(* The nodes of the plan of one query block, from the packet node down: limit, sort, windows, having,
   agg, where filter, scan.  [a_seen] are the GROUP BY expressions of the node of type AGG_NODE: with
   DISTINCT aggregates that is the lower of two nodes, which groups by their arguments too.
   Cites /repo/src/logical_plan/select_planner.cpp:135-170 (order of the nodes) and 594-700
   (create_agg_node).  The two nodes for DISTINCT aggregates are run as one, aggregates being functions of
   the rows of the group; joins, and the sort nodes below the windows, are left out. *)
Record aggnode := Agg { a_group : list expr; a_fns : list (list row -> val); a_seen : list expr }.

Inductive plan :=
| PSel (src : psource) (filt : list expr) (agg : option aggnode) (having : list expr)
       (ws : list window) (order : list (expr * bool)) (limit : option (nat * nat)) (proj : list expr)
| PUni (bs : list (plan * list expr)) (u n : nat) (dist : bool)
       (order : list (expr * bool)) (limit : option (nat * nat))
with psource :=
| PTable (rows : list (nat -> nat -> val))
| PSub (t : nat) (p : plan).

(* SelectPlanner::create_agg_node, /repo/src/logical_plan/select_planner.cpp:594-640: SELECT DISTINCT
   without aggregates and GROUP BY becomes GROUP BY of the select list; with GROUP BY it is refused. *)
Definition plan_agg (d : sel) : option (option aggnode) :=
  match s_group d, s_aggs d with
  | [], [] => if s_distinct d then Some (Some (Agg (s_proj d) [] (s_proj d))) else Some None
  | [], _ => Some (Some (Agg [] (s_aggs d) (s_dargs d)))
  | g, fs => if s_distinct d then None else Some (Some (Agg g fs (g ++ s_dargs d)))
  end.

(* UnionStmt::distinct as the parser sets it, one flag for the whole statement:
   /repo/include/sqlparser/sql_parse.y:2045-2102. *)
Definition union_distinct (ops : list bool) : bool :=
  fold_left (fun (d o : bool) => if d then d else o) ops false.

(* _name_slot_id_mapping: a later column of the same name overwrites the earlier one,
   /repo/src/logical_plan/union_planner.cpp:119; the lookup at 131-147. *)
Definition name_slot (names : list nat) (n : nat) : option nat :=
  snd (fold_left (fun acc m => (S (fst acc), if n =? m then Some (fst acc) else snd acc)) names (0, None)).

Fixpoint all_some {A} (l : list (option A)) : option (list A) :=
  match l with
  | [] => Some []
  | None :: _ => None
  | Some x :: rest => option_map (cons x) (all_some rest)
  end.

(* UnionPlanner::parse_dual_order_by, union_planner.cpp:124-154: an unknown name is an error. *)
Definition union_order (u : nat) (names : list nat) (order : list (nat * bool))
  : option (list (expr * bool)) :=
  all_some (map (fun o => option_map (fun i => (ERef u i, snd o)) (name_slot names (fst o))) order).

(* The number of columns of a plan: the projections of the packet node. *)
Definition width (p : plan) : nat :=
  match p with
  | PSel _ _ _ _ _ _ _ proj => length proj
  | PUni _ _ n _ _ _ => n
  end.

(* The planner.  UnionPlanner::plan and gen_select_stmts_plan, union_planner.cpp:23-96: the branches must have
   the same number of columns; SelectPlanner::plan, select_planner.cpp:28-178.  The tuple of the
   union is numbered 0 here (numbers are unique per statement in the code; each block reads the columns of its own
   FROM only, so it makes no difference).  An empty select list cannot be written. *)
Fixpoint plan_of (q : stmt) : option plan :=
  match q with
  | Select src d =>
      match s_proj d, plan_source src, plan_agg d with
      | _ :: _, Some ps, Some ag =>
          Some (PSel ps (s_where d) ag (s_having d) (s_wins d) (s_order d) (s_limit d) (s_proj d))
      | _, _, _ => None
      end
  | Union first rest names order limit =>
      match plan_of first, all_some (map (fun x : bool * stmt => plan_of (snd x)) rest),
            union_order 0 names order with
      | Some p, Some ps, Some ord =>
          if forallb (fun p' => width p' =? width p) ps && (length names =? width p) then
            Some (PUni (map (fun p' => (p', [])) (p :: ps)) 0 (width p)
                       (union_distinct (map fst rest)) ord limit)
          else None
      | _, _, _ => None
      end
  end
with plan_source (s : source) : option psource :=
  match s with
  | Table rows => Some (PTable rows)
  | Derived t q => option_map (PSub t) (plan_of q)
  end.

(* ---------- pushing conditions down ---------- *)

(* ExprNode::get_all_tuple_slot_ids, /repo/src/expr/expr_node.cpp:336-343. *)
Fixpoint refs (e : expr) : list (nat * nat) :=
  match e with
  | ERef t s => [(t, s)]
  | EFn _ args => concat (map refs args)
  | _ => []
  end.

(* ExprNode::has_agg and has_window, /repo/include/expr/expr_node.h:108-129. *)
Fixpoint has_agg_win (e : expr) : bool :=
  match e with
  | EAgg _ | EWin _ => true
  | EFn _ args => existsb has_agg_win args
  | _ => false
  end.

(* ExprNode::get_all_subquery_tuple_slot_ids, expr_node.cpp:300-334: the columns inside the subquery
   that the expression comes to.  The function looks at the children of the node only: for an expression
   that is itself a column it finds none. *)
Fixpoint inner_refs (t : nat) (pr : list expr) (e : expr) : list (nat * nat) :=
  match e with
  | EFn _ args =>
      concat (map (fun a => match a with
                            | ERef t' s => if t' =? t then refs (nth s pr (ELit VNull)) else []
                            | _ => inner_refs t pr a
                            end) args)
  | _ => []
  end.

(* ExprNode::replace_slot_ref_to_expr, expr_node.cpp:233-273. *)
Fixpoint replace (t : nat) (pr : list expr) (e : expr) : expr :=
  match e with
  | ERef t' s => if t' =? t then nth s pr e else e
  | EFn f args => EFn f (map (replace t pr) args)
  | _ => e
  end.

(* The slots of the GROUP BY or PARTITION BY expressions that are plain columns,
   /repo/src/exec/dual_scan_node.cpp:589-596 and 612-626. *)
Definition plain_refs (es : list expr) : list (nat * nat) :=
  concat (map (fun e => match e with ERef t s => [(t, s)] | _ => [] end) es).

Definition ref_eqb (a b : nat * nat) : bool := (fst a =? fst b) && (snd a =? snd b).
Definition ref_in (a : nat * nat) (l : list (nat * nat)) : bool := existsb (ref_eqb a) l.

(* get_subquery_window_partition_by_slots, dual_scan_node.cpp:600-640: the slots that all windows
   partition by. *)
Definition common_parts (ws : list window) : list (nat * nat) :=
  match ws with
  | [] => []
  | w :: rest =>
      fold_left (fun acc w' => filter (fun a => ref_in a acc) (plain_refs (w_part w')))
                rest (plain_refs (w_part w))
  end.

(* The projections of the derived table (the packet node of its plan). *)
Definition projections (p : plan) : list expr :=
  match p with
  | PSel _ _ _ _ _ _ _ proj => proj
  | PUni _ u n _ _ _ => map (ERef u) (seq 0 n)
  end.

(* The AGG_NODE of the subquery's own plan, get_subquery_group_by_slots,
   dual_scan_node.cpp:576-598; the DISTINCT of a UNION is an AGG_NODE over all columns, union_planner.cpp:231-253. *)
Definition seen_group (p : plan) : option (list expr) :=
  match p with
  | PSel _ _ ag _ _ _ _ _ => option_map a_seen ag
  | PUni _ u n dist _ _ => if dist then Some (map (ERef u) (seq 0 n)) else None
  end.

Definition windows_of (p : plan) : list window :=
  match p with PSel _ _ _ _ ws _ _ _ => ws | PUni _ _ _ _ _ _ => [] end.

(* DualScanNode::can_predicate_pushdown, dual_scan_node.cpp:716-732 (the flag union_predicate_pushdown is on). *)
Definition has_limit (p : plan) : bool :=
  match p with
  | PSel _ _ _ _ _ _ l _ => match l with Some _ => true | None => false end
  | PUni _ _ _ _ _ l => match l with Some _ => true | None => false end
  end.

(* DualScanNode::can_expr_predicate_pushdown, dual_scan_node.cpp:642-714.  A column without a
   projection makes the code give up with an error; here the condition is not pushed. *)
Definition pushable (t : nat) (p : plan) (e : expr) : bool :=
  let rs := refs e in
  let pr := projections p in
  negb (match rs with [] => true | _ => false end) &&
  forallb (fun r => fst r =? t) rs &&
  negb (has_agg_win e) &&
  forallb (fun r => match nth_error pr (snd r) with Some x => negb (has_agg_win x) | None => false end) rs &&
  (let ins := inner_refs t pr e in
   match seen_group p with
   | None => true
   | Some gs => forallb (fun r => ref_in r (plain_refs gs)) ins
   end &&
   match windows_of p with
   | [] => true
   | ws => forallb (fun r => ref_in r (common_parts ws)) ins
   end).

(* DualScanNode::predicate_pushdown, dual_scan_node.cpp:212-262: the conditions that go into the subquery,
   with the projections put in, and those that stay. *)
Definition going (t : nat) (p : plan) (es : list expr) : list expr :=
  if has_limit p then [] else map (replace t (projections p)) (filter (pushable t p) es).
Definition staying (t : nat) (p : plan) (es : list expr) : list expr :=
  if has_limit p then es else filter (fun e => negb (pushable t p e)) es.

(* predicate_pushdown from the packet node of a query down: packet, limit, sort, window, having and agg nodes
   pass the conditions on (/repo/src/exec/packet_node.cpp:1516-1524, exec_node.cpp:103-111), the where filter adds its own
   (filter_node.cpp:545-564), the scan of a table leaves them in the filter (rocksdb_scan_node.cpp:339-350); a
   union gives a copy to every branch (union_node.cpp:227-278). *)
Fixpoint push (p : plan) (es : list expr) : plan :=
  match p with
  | PSel src filt ag hv ws ord lim pr =>
      match src with
      | PTable rows => PSel (PTable rows) (es ++ filt) ag hv ws ord lim pr
      | PSub t p' =>
          PSel (PSub t (push p' (going t p' (es ++ filt)))) (staying t p' (es ++ filt)) ag hv ws ord lim pr
      end
  | PUni bs u n dist ord lim =>
      PUni (map (fun b : plan * list expr =>
                   (push (fst b) (going u (fst b) (es ++ snd b)), staying u (fst b) (es ++ snd b))) bs)
           u n dist ord lim
  end.

(* ---------- execution ---------- *)

(* AggNode::process_row_batch, /repo/src/exec/agg_node.cpp:507-600: a hash map from the key to the group, each row goes to the
   group of its key.  The map is walked in the order of insertion here; the rows of the group stand for the states of its
   aggregates. *)
Fixpoint add_to_group (k : list val) (r : row) (m : list (list val * list row)) : list (list val * list row) :=
  match m with
  | [] => [(k, [r])]
  | (k', g) :: rest => if key_eqb k k' then (k', g ++ [r]) :: rest else (k', g) :: add_to_group k r rest
  end.
Definition hash_groups (key : row -> list val) (rows : list row) : list (list row) :=
  map snd (fold_left (fun m r => add_to_group (key r) r m) rows []).

(* AggNode::open / get_next: a group without GROUP BY is given out even if there was no row
   (agg_node.cpp:490-505, the default row).  *)
Definition run_agg (ag : option aggnode) (rows : list row) : list row :=
  match ag with
  | None => rows
  | Some a =>
      let gs := hash_groups (fun r => map (eval r) (a_group a)) rows in
      match a_group a, gs with
      | [], [] => [group_row (a_fns a) []]
      | _, _ => map (group_row (a_fns a)) gs
      end
  end.

(* WindowNode: one partition after the other.  Partitions come in the order of their first row rather than sorted. *)
Definition run_window (rows : list row) (w : window) : list row :=
  concat (map (fun p => map (fun iv => add_win (nth (fst iv) p null_row) (snd iv))
                            (filter (fun iv => fst iv <? length p) (w_fn w p)))
              (hash_groups (fun r => map (eval r) (w_part w)) rows)).

Definition project (pr : list expr) (r : row) : list val := map (eval r) pr.

(* The exec nodes, bottom up; DualScanNode::get_next (dual_scan_node.cpp:129-203) makes the row of the outer tuple from
   the projections of the inner row; UnionNode::open (union_node.cpp:54-105) takes the branches one after the other. *)
Fixpoint run (p : plan) : list (list val) :=
  match p with
  | PSel src filt ag hv ws ord lim pr =>
      let r0 := match src with PTable rows => map table_row rows | PSub t p' => map (as_row t) (run p') end in
      let r1 := filter (fun r => satisfies r filt) r0 in
      let r3 := filter (fun r => satisfies r hv) (run_agg ag r1) in
      map (project pr) (cut lim (sort_rows ord (fold_left run_window ws r3)))
  | PUni bs u n dist ord lim =>
      let all := concat (map (fun b : plan * list expr =>
                   filter (fun r => satisfies r (snd b)) (map (as_row u) (run (fst b)))) bs) in
      let cols := map (ERef u) (seq 0 n) in
      let kept := if dist then run_agg (Some (Agg cols [] cols)) all else all in
      map (project cols) (cut lim (sort_rows ord kept))
  end.

(* The answer the server gives: plan, push the conditions down once from the top
   (/repo/include/physical_plan/predicate_pushdown.h:28-51), run. *)
Definition answer (q : stmt) : option (list (list val)) :=
  option_map (fun p => run (push p [])) (plan_of q).
