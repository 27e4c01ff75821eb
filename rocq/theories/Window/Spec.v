(* What window functions mean, without the node that computes them.

   [p] is a partition in its ORDER BY order, rows counted from 0. *)
From Coq Require Import List ZArith Bool Sorting.Sorted.
From Verif Require Import Common.Bytes Key.Model Key.Spec Agg.Model Agg.Spec Window.Model.
Import ListNotations.
Local Open Scope Z_scope.

(* a partition in order *)
Definition in_order (keys : okeys) (p : list row) : Prop :=
  StronglySorted (fun a b => order_compare keys a b <> Gt) p.

(* ---- frames ---- *)

(* ROWS: row j counts for row i *)
Definition from_row (b : sql_bound) (i j : Z) : bool :=
  match b with
  | UnboundedPreceding => true
  | NPreceding n => i - n <=? j
  | CurrentRow => i <=? j
  | NFollowing n => i + n <=? j
  | UnboundedFollowing => false
  end.
Definition to_row (b : sql_bound) (i j : Z) : bool :=
  match b with
  | UnboundedPreceding => false
  | NPreceding n => j <=? i - n
  | CurrentRow => j <=? i
  | NFollowing n => j <=? i + n
  | UnboundedFollowing => true
  end.
(* RANGE: row r counts for row c, with CURRENT ROW its peers count too *)
Definition from_peer (b : sql_bound) (keys : okeys) (c r : row) : bool :=
  match b with
  | UnboundedPreceding => true
  | CurrentRow => match order_compare keys r c with Lt => false | _ => true end
  | _ => false
  end.
Definition to_peer (b : sql_bound) (keys : okeys) (c r : row) : bool :=
  match b with
  | CurrentRow => match order_compare keys r c with Gt => false | _ => true end
  | UnboundedFollowing => true
  | _ => false
  end.
Definition in_frame (fr : ftype * sql_bound * sql_bound) (keys : okeys) (i : nat) (c : row) (j : nat) (r : row) : bool :=
  match fr with
  | (FRows, a, b) => from_row a (Z.of_nat i) (Z.of_nat j) && to_row b (Z.of_nat i) (Z.of_nat j)
  | (FRange, a, b) => from_peer a keys c r && to_peer b keys c r
  end.
Definition numbered (p : list row) : list (nat * row) := combine (seq 0 (length p)) p.
(* the frame of row i, whose row is c *)
Definition frame_rows (fr : ftype * sql_bound * sql_bound) (keys : okeys) (p : list row) (i : nat) (c : row) : list row :=
  map snd (filter (fun x => in_frame fr keys i c (fst x) (snd x)) (numbered p)).
(* without a frame clause: the rows up to the current one and its peers, all rows without ORDER BY *)
Definition sql_frame (s : wspec) : ftype * sql_bound * sql_bound :=
  match s_frame s with
  | Some fr => fr
  | None => (FRange, UnboundedPreceding, match s_order s with [] => UnboundedFollowing | _ => CurrentRow end)
  end.

(* ---- values ---- *)

(* [v] is the fraction a / b *)
Definition is_fraction (v : option wval) (a b : Z) : Prop :=
  exists x y, v = Some (WQuot x y) /\ 0 < y /\ x * b = a * y.
Definition how_many {A} (f : A -> bool) (l : list A) : Z := Z.of_nat (length (filter f l)).
Definition precedes (keys : okeys) (c r : row) : bool := match order_compare keys r c with Lt => true | _ => false end.
Definition not_after (keys : okeys) (c r : row) : bool := match order_compare keys r c with Gt => false | _ => true end.
Definition rank_of (keys : okeys) (p : list row) (c : row) : Z := 1 + how_many (precedes keys c) p.
(* the rows without a peer before them *)
Definition first_peers (keys : okeys) (p : list row) : list row :=
  map snd (filter (fun x => forallb (fun y => negb ((fst y <? fst x)%nat && match order_compare keys (snd y) (snd x) with Eq => true | _ => false end))
                                    (numbered p)) (numbered p)).
Definition dense_rank_of (keys : okeys) (p : list row) (c : row) : Z := 1 + how_many (precedes keys c) (first_peers keys p).
(* NTILE(n) over [len] rows: buckets as even as they can be, larger ones first *)
Definition bucket (n len i : Z) : Z :=
  let q := len / n in let r := len mod n in
  if i <? r * (q + 1) then i / (q + 1) + 1 else r + (i - r * (q + 1)) / q + 1.
Definition value_at (p : list row) (j : Z) (e : expr) (otherwise : option value) : option wval :=
  option_map WV (if j <? 0 then otherwise else match nth_error p (Z.to_nat j) with Some r => e r | None => otherwise end).

(* the value of a function for row i of the partition, whose row is c and whose frame is fr *)
Definition fn_spec (keys : okeys) (p : list row) (i : nat) (c : row) (fr : list row) (f : wfn) (v : option wval) : Prop :=
  match f with
  | WCountStar => v = Some (WV (VNum (Z.of_nat (length fr))))
  | WCount es => v = Some (WV (VNum (how_many (fun r => forallb (fun e : expr => match e r with None => false | _ => true end) es) fr)))
  | WSum e => v = match nonnull e fr with [] => None | l => Some (WV (VNum (zsum l))) end
  | WAvg e => match nonnull e fr with [] => v = None | l => is_fraction v (zsum l) (Z.of_nat (length l)) end
  | WMin t e =>
      match nonnull e fr with
      | [] => v = None
      | l => exists w, v = Some (WV w) /\ In w l /\ forall u, In u l -> value_compare t w u <> Gt
      end
  | WMax t e =>
      match nonnull e fr with
      | [] => v = None
      | l => exists w, v = Some (WV w) /\ In w l /\ forall u, In u l -> value_compare t w u <> Lt
      end
  | WRowNumber => v = Some (WV (VNum (Z.of_nat i + 1)))
  | WRank => v = Some (WV (VNum (rank_of keys p c)))
  | WDenseRank => v = Some (WV (VNum (dense_rank_of keys p c)))
  | WPercentRank => is_fraction v (if (length p =? 1)%nat then 0 else rank_of keys p c - 1)
                                  (if (length p =? 1)%nat then 1 else Z.of_nat (length p) - 1)
  | WCumeDist => is_fraction v (how_many (not_after keys c) p) (Z.of_nat (length p))
  | WNtile n => v = Some (WV (VNum (bucket n (Z.of_nat (length p)) (Z.of_nat i))))
  | WLead e off d => v = value_at p (Z.of_nat i + off) e (match d with Some d => d c | None => None end)
  | WLag e off d => v = value_at p (Z.of_nat i - off) e (match d with Some d => d c | None => None end)
  | WFirst e => v = value_at fr 0 e None
  | WLast e => v = value_at fr (Z.of_nat (length fr) - 1) e None
  | WNth e n => v = value_at fr (n - 1) e None
  end.

(* the numbers a query may use: literals the parser accepts and open does not reject, sums that
   fit into BIGINT, AVG in doubles without rounding *)
Definition abs_sum (l : list Z) : Z := zsum (map Z.abs l).
Definition small_fn (f : wfn) (p : list row) : Prop :=
  match f with
  | WSum e => abs_sum (nonnull e p) < 2 ^ 63
  | WAvg e => abs_sum (nonnull e p) <= 2 ^ 53
  | WNtile n => 0 < n
  | WLead _ off _ => 0 <= off /\ off + Z.of_nat (length p) < 2 ^ 63
  | WLag _ off _ => 0 <= off
  | WNth _ n => 0 < n /\ n + Z.of_nat (length p) < 2 ^ 31
  | _ => True
  end.
Definition small_bound (b : sql_bound) (p : list row) : Prop :=
  match b with
  | NPreceding n => 0 <= n < 2 ^ 31
  | NFollowing n => 0 <= n /\ n + Z.of_nat (length p) <= 2 ^ 31
  | _ => True
  end.
Definition small_frame (s : wspec) (p : list row) : Prop :=
  match s_frame s with Some (_, a, b) => small_bound a p /\ small_bound b p | None => True end.

(* ---- partitions ---- *)

(* the rows, cut where the partition expressions change *)
Definition partitions (gs : groups) (rows : list row) (parts : list (list row)) : Prop :=
  concat parts = rows /\ Forall (fun p => p <> []) parts /\
  Forall (fun p => forall r, In r p -> p = filter (same_group gs r) rows) parts.
(* rows of the same partition stand together, as after the sort by the partition expressions *)
Definition together (gs : groups) (rows : list row) : Prop :=
  forall a x b y c, rows = a ++ x :: b ++ y :: c -> same_group gs x y = true ->
  forall z, In z b -> same_group gs x z = true.

(* a column of values, one for each row of the partition *)
Definition values_ok (s : wspec) (f : wfn) (p : list row) (vs : list (option wval)) : Prop :=
  length vs = length p /\
  forall i c v, nth_error p i = Some c -> nth_error vs i = Some v ->
    fn_spec (s_order s) p i c (frame_rows (sql_frame s) (s_order s) p i c) f v.
(* the rows of a partition with the values of the functions *)
Definition partition_ok (s : wspec) (fs : list wfn) (p : list row) (out : list orow) : Prop :=
  map fst out = p /\ Forall (fun x => length (snd x) = length fs) out /\
  forall n f, nth_error fs n = Some f -> values_ok s f p (map (fun x => nth n (snd x) None) out).
(* the order the child delivers the rows in: the partition expressions, then ORDER BY *)
Definition sort_keys (s : wspec) : okeys := map (fun g => (fst g, snd g, true)) (s_part s) ++ s_order s.
(* batches of a child: some rows in each one, but maybe the last *)
Inductive feed : list (list row * bool) -> Prop :=
| feed_last b : feed [(b, true)]
| feed_more b q : b <> [] -> feed q -> feed ((b, false) :: q).
Definition fed (child : list (list row * bool)) : list row := concat (map fst child).
(* the answer for the rows of a table, partition by partition *)
Definition windows_ok (s : wspec) (fs : list wfn) (rows : list row) (out : list orow) : Prop :=
  exists parts outs, partitions (s_part s) rows parts /\ Forall2 (partition_ok s fs) parts outs /\ out = concat outs.
(* the OVER clause and the functions fit each other: what merge_window_node needs (see
   C70_merged_windows_refuted) *)
Definition coherent (s : wspec) (fs : list wfn) : Prop :=
  match fs with
  | [] => False
  | f :: _ => rank_like f = false \/ (forall g, In g fs -> rank_like g = true) \/ s_order s = []
  end.
(* what is asked of the rows of a table *)
Definition small_table (s : wspec) (fs : list wfn) (rows : list row) : Prop :=
  Forall (groupable (s_part s)) rows /\
  forall r, In r rows ->
    let p := filter (same_group (s_part s) r) rows in
    Z.of_nat (length p) < 2 ^ 31 /\ small_frame s p /\ forall f, In f fs -> small_fn f p.
Definition with_limit (l : option Z) (w : wnode) : wnode := WN (w_part w) (w_keys w) (w_mode w) (w_fns w) l.
