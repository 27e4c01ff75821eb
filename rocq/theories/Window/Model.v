(* Window functions: src/exec/window_node.cpp, include/exec/window_node.h,
   src/expr/window_fn_call.cpp, and their planning in src/logical_plan/logical_planner.cpp:2167-2485
   and src/logical_plan/select_planner.cpp:1501-1531.

   Rows, expressions, GROUP BY keys (encode_exprs_key) and MemRowCompare are those of Agg/Model.v.
   [None] stands for a failed query and for undefined behaviour (a null batch, a signed
   overflow).  Numbers only in SUM and AVG; no texts cast to doubles. *)
From Coq Require Import List ZArith Bool.
From Verif Require Import Common.Bytes Key.Model Key.Spec Agg.Model.
Import ListNotations.
Local Open Scope Z_scope.

Definition okeys := list (coltype * expr * bool).
(* MemRowCompare::compare *)
Definition row_compare (keys : okeys) (a b : row) : comparison :=
  key_compare (key_types keys) (key_values keys a) (key_values keys b).
Definition differ (keys : okeys) (a b : row) : bool := match row_compare keys a b with Eq => false | _ => true end.

(* WindowType with the arguments (window_fn_call.h:78-97); the numbers of NTILE, LEAD, LAG and
   NTH_VALUE are literals and checked in open (window_fn_call.cpp:65-193) *)
Inductive wfn :=
| WCountStar
| WCount (es : list expr)
| WSum (e : row -> option Z)
| WAvg (e : row -> option Z)
| WMin (t : coltype) (e : expr)
| WMax (t : coltype) (e : expr)
| WRowNumber
| WRank
| WDenseRank
| WPercentRank
| WCumeDist
| WNtile (n : Z)
| WLead (e : expr) (offset : Z) (dflt : option expr)
| WLag (e : expr) (offset : Z) (dflt : option expr)
| WFirst (e : expr)
| WLast (e : expr)
| WNth (e : expr) (n : Z).

(* a value; [WQuot a b] is the double a / b *)
Inductive wval := WV (v : value) | WQuot (a b : Z).

(* the intermediates (window_fn_call.h:22-66) *)
Inductive inter :=
| ICount (cnt : Z)
| ISum (s : option Z)
| IAvg (s c : Z)
| IMinMax (v : option value)
| IRow (n : Z)
| IRank (idx last : Z) (b : option (list row))
| INtile (idx grp quot rem : Z)
| ILead (idx : Z) (b : option (list row))
| IVal (v : option value).

(* initialize (window_fn_call.cpp:311-362) *)
Definition initialize (f : wfn) : inter :=
  match f with
  | WCountStar | WCount _ => ICount 0
  | WSum _ => ISum None
  | WAvg _ => IAvg 0 0
  | WMin _ _ | WMax _ _ => IMinMax None
  | WRowNumber => IRow 0
  | WRank | WDenseRank | WPercentRank | WCumeDist => IRank 0 0 None
  | WNtile _ => INtile 0 1 0 0
  | WLead _ _ _ | WLag _ _ _ => ILead 0 None
  | WFirst _ | WLast _ | WNth _ _ => IVal None
  end.
(* window_fn_call.cpp:714-764 *)
Definition frame_reset (i : inter) : inter :=
  match i with
  | ICount _ => ICount 0
  | ISum _ => ISum None
  | IAvg _ _ => IAvg 0 0
  | IMinMax _ => IMinMax None
  | IVal _ => IVal None
  | _ => i
  end.
(* window_fn_call.cpp:766-832 *)
Definition partition_reset (i : inter) : inter :=
  match i with
  | ICount _ => ICount 0
  | ISum _ => ISum None
  | IAvg _ _ => IAvg 0 0
  | IMinMax _ => IMinMax None
  | IRow _ => IRow 0
  | IRank _ _ _ => IRank 0 0 None
  | INtile _ _ _ _ => INtile 0 1 0 0
  | ILead _ _ => ILead 0 None
  | IVal _ => IVal None
  end.

(* int64 addition *)
Definition sadd64 (x y : Z) : option Z := if (- 2 ^ 63 <=? x + y) && (x + y <? 2 ^ 63) then Some (x + y) else None.

(* the loop of SUM: values are cast to INT64 *)
Fixpoint sum_rows (e : row -> option Z) (s : option Z) (rs : list row) : option (option Z) :=
  match rs with
  | [] => Some s
  | r :: q =>
      match e r with
      | None => sum_rows e s q
      | Some z => let z := to_signed 64 z in
          match s with
          | None => sum_rows e (Some z) q
          | Some x => match sadd64 x z with Some y => sum_rows e (Some y) q | None => None end
          end
      end
  end.
(* AVG: doubles, exact up to 2^53 ([dadd]) *)
Fixpoint avg_rows (e : row -> option Z) (s c : Z) (rs : list row) : option (Z * Z) :=
  match rs with
  | [] => Some (s, c)
  | r :: q =>
      match e r with
      | None => avg_rows e s c q
      | Some z => match dadd s z with Some y => avg_rows e y (c + 1) q | None => None end
      end
  end.
Fixpoint extreme_rows (up : bool) (t : coltype) (e : expr) (m : option value) (rs : list row) : option value :=
  match rs with
  | [] => m
  | r :: q =>
      match e r with
      | None => extreme_rows up t e m q
      | Some v =>
          match m with
          | None => extreme_rows up t e (Some v) q
          | Some w => match value_compare t w v, up with
                      | Gt, false | Lt, true => extreme_rows up t e (Some v) q
                      | _, _ => extreme_rows up t e m q
                      end
          end
      end
  end.
Definition count_rows (es : list expr) (c : Z) (rs : list row) : Z :=
  fold_left (fun c r => if forallb (fun e : expr => match e r with None => false | _ => true end) es then c + 1 else c) rs c.

(* rows [s .. e) of the batch *)
Definition between (b : list row) (s e : Z) : list row := firstn (Z.to_nat (e - s)) (skipn (Z.to_nat s) b).
Definition at_row (b : list row) (i : Z) (e : expr) : option (option value) :=
  if i <? 0 then None else match nth_error b (Z.to_nat i) with Some r => Some (e r) | None => None end.
Definition size (b : list row) : Z := Z.of_nat (length b).

(* window_fn_call.cpp:364-498 *)
Definition call (f : wfn) (i : inter) (b : list row) (s e : Z) : option inter :=
  if (s <? 0) || (size b <=? s) || (e <=? 0) || (size b <? e) then None else
  match f, i with
  | WCountStar, ICount c => Some (ICount (c + (e - s)))
  | WCount es, ICount c => Some (ICount (count_rows es c (between b s e)))
  | WSum x, ISum m => option_map ISum (sum_rows x m (between b s e))
  | WAvg x, IAvg m c => option_map (fun p => IAvg (fst p) (snd p)) (avg_rows x m c (between b s e))
  | WMin t x, IMinMax m => Some (IMinMax (extreme_rows false t x m (between b s e)))
  | WMax t x, IMinMax m => Some (IMinMax (extreme_rows true t x m (between b s e)))
  | WRowNumber, IRow n => Some (IRow n)
  | (WRank | WDenseRank | WPercentRank | WCumeDist), IRank idx last _ => Some (IRank idx last (Some b))
  | WNtile n, INtile idx grp _ _ => if n <=? 0 then None else Some (INtile idx grp (size b / n) (size b mod n))
  | (WLead _ _ _ | WLag _ _ _), ILead idx _ => Some (ILead idx (Some b))
  | WFirst x, IVal _ => option_map IVal (at_row b s x)
  | WLast x, IVal _ => option_map IVal (at_row b (e - 1) x)
  | WNth x n, IVal v =>
      (* int idx = start + n - 1 *)
      if 2 ^ 63 <=? s + n then None else
      let idx := to_signed 32 (s + n - 1) in
      if (s <=? idx) && (idx <? e) then option_map IVal (at_row b idx x) else Some (IVal v)
  | _, _ => None
  end.

(* the rows at the head of a list that compare equal to [cur] *)
Fixpoint peers (keys : okeys) (cur : row) (l : list row) : Z :=
  match l with
  | [] => 0
  | r :: q => if differ keys cur r then 0 else 1 + peers keys cur q
  end.

Definition vnum (z : Z) : option wval := Some (WV (VNum z)).
(* RANK, DENSE_RANK and PERCENT_RANK: the rank of the next row (window_fn_call.cpp:545-567,
   582-598); [idx] is already incremented *)
Definition next_rank (keys : okeys) (dense : bool) (idx last : Z) (b : option (list row)) : option Z :=
  if idx =? 1 then Some 1 else
  match b with
  | None => None
  | Some b =>
      if (idx <? 2) || (size b <? idx) then None else
      match nth_error b (Z.to_nat (idx - 2)), nth_error b (Z.to_nat (idx - 1)) with
      | Some l, Some c => Some (if differ keys l c then (if dense then last + 1 else idx) else last)
      | _, _ => None
      end
  end.
(* window_fn_call.cpp:500-712.  int32_t num_rows: batches of less than 2^31 rows *)
Definition get_result (keys : okeys) (f : wfn) (i : inter) : option (inter * option wval) :=
  match f, i with
  | (WCountStar | WCount _), ICount c => Some (i, vnum c)
  | WSum _, ISum s => Some (i, match s with Some z => vnum z | None => None end)
  | WAvg _, IAvg s c => Some (i, if c =? 0 then None else Some (WQuot s c))
  | (WMin _ _ | WMax _ _), IMinMax m => Some (i, option_map WV m)
  | WRowNumber, IRow n => Some (IRow (n + 1), vnum (n + 1))
  | (WRank | WDenseRank), IRank idx last b =>
      match keys with
      | [] => Some (i, vnum 1)
      | _ => match next_rank keys (match f with WDenseRank => true | _ => false end) (idx + 1) last b with
             | Some k => Some (IRank (idx + 1) k b, vnum k)
             | None => None
             end
      end
  | WPercentRank, IRank idx last b =>
      match keys with
      | [] => Some (i, Some (WQuot 0 1))
      | _ => match b with
             | None => None
             | Some rs =>
                 if size rs =? 0 then None else
                 match next_rank keys false (idx + 1) last b with
                 | Some k => Some (IRank (idx + 1) k b, Some (if size rs =? 1 then WQuot 0 1 else WQuot (k - 1) (size rs - 1)))
                 | None => None
                 end
             end
      end
  | WCumeDist, IRank idx last b =>
      match keys with
      | [] => Some (i, Some (WQuot 1 1))
      | _ => match b with
             | None => None
             | Some rs =>
                 if (idx <? 0) || (size rs <=? idx) || (last <? 0) then None else
                 match nth_error rs (Z.to_nat idx) with
                 | Some c => let last' := last + peers keys c (skipn (Z.to_nat last) rs) in
                             Some (IRank (idx + 1) last' b, Some (WQuot last' (size rs)))
                 | None => None
                 end
             end
      end
  | WNtile _, INtile idx grp q r =>
      let most := if grp <=? r then q + 1 else q in
      Some (if idx + 1 =? most then INtile 0 (grp + 1) q r else INtile (idx + 1) grp q r, vnum grp)
  | (WLead x off d | WLag x off d), ILead idx b =>
      match b with
      | None => None
      | Some rs =>
          if match f with WLead _ _ _ => 2 ^ 63 <=? idx + off | _ => false end then None else
          let j := match f with WLead _ _ _ => idx + off | _ => idx - off end in
          if (0 <=? j) && (j <? size rs)
          then match at_row rs j x with Some v => Some (ILead (idx + 1) b, option_map WV v) | None => None end
          else match d with
               | None => Some (ILead (idx + 1) b, None)
               | Some y => match at_row rs idx y with Some v => Some (ILead (idx + 1) b, option_map WV v) | None => None end
               end
      end
  | (WFirst _ | WLast _ | WNth _ _), IVal v => Some (i, option_map WV v)
  | _, _ => None
  end.

(* ---- frames ---- *)

Inductive btype := Preceding | Following | Current.
(* FrameBound (window_node.h:93-97) *)
Record bound := Bound { b_type : btype; b_unbounded : bool; b_num : Z }.
Inductive mode := NonFrame | RowFrame (s e : bound) | RangeFrame (s e : bound).

(* RowFrameWindowProcessor::get_start_row and get_end_row (window_node.cpp:557-640); [n] rows in
   the partition *)
Definition row_start (s : bound) (i n : Z) : option Z :=
  match b_unbounded s, b_type s with
  | true, Preceding => Some 0
  | true, _ => None
  | false, Preceding => if b_num s <=? i then Some (i - b_num s) else Some 0
  | false, Following =>
      if 2 ^ 31 <=? i + b_num s then None else if i + b_num s <? n then Some (i + b_num s) else Some n
  | false, Current => Some i
  end.
Definition row_end (e : bound) (i n : Z) : option Z :=
  match b_unbounded e, b_type e with
  | true, Following => Some n
  | true, _ => None
  | false, Preceding => if b_num e <=? i then Some (i - b_num e + 1) else Some 0
  | false, Following =>
      if 2 ^ 31 <=? i + b_num e then None else if i + b_num e <? n then Some (i + b_num e + 1) else Some n
  | false, Current => Some (i + 1)
  end.
(* RangeFrameWindowProcessor (window_node.cpp:643-721) *)
Definition range_start (keys : okeys) (s : bound) (i : Z) (b : list row) : option Z :=
  match b_unbounded s, b_type s with
  | true, Preceding => Some 0
  | true, _ => None
  | false, Current =>
      match nth_error b (Z.to_nat i) with
      | Some c => Some (i - peers keys c (rev (firstn (Z.to_nat i) b)))
      | None => None
      end
  | false, _ => None
  end.
Definition range_end (keys : okeys) (e : bound) (i : Z) (b : list row) : option Z :=
  match b_unbounded e, b_type e with
  | true, Following => Some (size b)
  | true, _ => None
  | false, Current =>
      match nth_error b (Z.to_nat i) with
      | Some c => Some (i + peers keys c (skipn (Z.to_nat (i + 1)) b) + 1)
      | None => None
      end
  | false, _ => None
  end.
Definition frame_at (keys : okeys) (m : mode) (b : list row) (i : Z) : option (Z * Z) :=
  match m with
  | NonFrame => Some (0, size b)
  | RowFrame s e =>
      match row_start s i (size b), row_end e i (size b) with Some x, Some y => Some (x, y) | _, _ => None end
  | RangeFrame s e =>
      match range_start keys s i b, range_end keys e i b with Some x, Some y => Some (x, y) | _, _ => None end
  end.

(* process_one_partition (window_node.cpp:459-554) for one function; every function has its own
   intermediate, so they are run one after the other here *)
Fixpoint results (keys : okeys) (f : wfn) (k : nat) (i : inter) : option (inter * list (option wval)) :=
  match k with
  | O => Some (i, [])
  | S k =>
      match get_result keys f i with
      | Some (i', v) => match results keys f k i' with Some (i'', vs) => Some (i'', v :: vs) | None => None end
      | None => None
      end
  end.
Fixpoint frames (keys : okeys) (m : mode) (f : wfn) (b : list row) (cur : Z) (k : nat) (i : inter) : option (inter * list (option wval)) :=
  match k with
  | O => Some (i, [])
  | S k =>
      let i := frame_reset i in
      match frame_at keys m b cur with
      | None => None
      | Some (s, e) =>
          if (s <? 0) || (e <? 0) then None else
          match (if s <? e then call f i b s e else Some i) with
          | None => None
          | Some i =>
              match get_result keys f i with
              | None => None
              | Some (i, v) => match frames keys m f b (cur + 1) k i with Some (i, vs) => Some (i, v :: vs) | None => None end
              end
          end
      end
  end.
Definition run_fn (keys : okeys) (m : mode) (f : wfn) (i : inter) (b : list row) : option (inter * list (option wval)) :=
  let i := partition_reset i in
  match m with
  | NonFrame => match call f i b 0 (size b) with Some i => results keys f (length b) i | None => None end
  | _ => frames keys m f b 0 (length b) i
  end.

(* the functions of a node: their intermediates and a column of values each *)
Fixpoint run_fns (keys : okeys) (m : mode) (fs : list wfn) (is : list inter) (b : list row) : option (list inter * list (list (option wval))) :=
  match fs, is with
  | f :: fs, i :: is =>
      match run_fn keys m f i b, run_fns keys m fs is b with
      | Some (i, vs), Some (is, cols) => Some (i :: is, vs :: cols)
      | _, _ => None
      end
  | _, _ => Some ([], [])
  end.
Definition orow := (row * list (option wval))%type.
Definition with_columns (b : list row) (cols : list (list (option wval))) : list orow :=
  map (fun p => (snd p, map (fun vs => nth (fst p) vs None) cols)) (combine (seq 0 (length b)) b).
Definition process_one_partition (keys : okeys) (m : mode) (fs : list wfn) (is : list inter) (b : list row) : option (list inter * list orow) :=
  match b with
  | [] => Some (is, [])
  | _ => match run_fns keys m fs is b with Some (is, cols) => Some (is, with_columns b cols) | None => None end
  end.

(* ---- WindowNode ---- *)

Record wnode := WN { w_part : groups; w_keys : okeys; w_mode : mode; w_fns : list wfn; w_limit : option Z }.
(* [ws_child]: what the next calls of the child return, rows and eos *)
Record wstate := WS {
  ws_child : list (list row * bool);
  ws_batch : list row;            (* _child_row_batch *)
  ws_offs : list nat;             (* _partition_offset_vec *)
  ws_next : nat;                  (* _next_partition_id *)
  ws_last : option (list Z);      (* _last_partition_key *)
  ws_eos : bool;                  (* _child_eos *)
  ws_fns : list inter;
  ws_returned : Z }.
Definition wopen (w : wnode) (child : list (list row * bool)) : wstate :=
  WS child [] [] 0 None false (map initialize (w_fns w)) 0.

Definition key_eqb (a b : list Z) : bool := if list_eq_dec Z.eq_dec a b then true else false.
(* the loop over the rows of a batch with several partitions (window_node.cpp:290-300) *)
Fixpoint offsets (gs : groups) (i : nat) (last : list Z) (rs : list row) : option (list nat) :=
  match rs with
  | [] => Some [i]
  | r :: q =>
      match group_key gs r with
      | None => None
      | Some k =>
          if key_eqb k last then offsets gs (S i) last q
          else option_map (cons i) (offsets gs (S i) k q)
      end
  end.
(* split_into_partitions (window_node.cpp:253-302): the offsets, the last key, whether the first
   partition belongs to the previous one *)
Definition split_into_partitions (gs : groups) (lastk : option (list Z)) (b : list row) : option (list nat * option (list Z) * bool) :=
  match gs with
  | [] => Some ([length b], lastk, true)
  | _ =>
      match b with
      | [] => None
      | r :: q =>
          match group_key gs r, group_key gs (last q r) with
          | Some first, Some lst =>
              let belongs := match lastk with None => false | Some k => key_eqb first k end in
              if key_eqb first lst then Some ([length b], Some lst, belongs)
              else option_map (fun o => (o, Some lst, belongs)) (offsets gs 1 first q)
          | _, _ => None
          end
      end
  end.
(* window_node.h:59-79 *)
Definition has_cache (st : wstate) : bool := (ws_next st <? length (ws_offs st))%nat.
Definition next_partition (offs : list nat) (id : nat) : option (nat * nat) :=
  match nth_error offs id with
  | None => None
  | Some e => Some (match id with O => O | S k => nth k offs O end, e)
  end.
Definition slice (b : list row) (s e : nat) : list row := firstn (e - s) (skipn s b).
Definition take_partition (b : list row) (offs : list nat) (id : nat) : option (list row * nat) :=
  match next_partition offs id with
  | Some (s, e) => if (length b <? e)%nat || (e <=? s)%nat then None else Some (slice b s e, e)
  | None => None
  end.

(* the inner loop (window_node.cpp:149-176): [cur] grows by the rows of the partition in the
   following batches.  A batch without rows ends it: its size is not [e]. *)
Fixpoint extend (gs : groups) (child : list (list row * bool)) (st : wstate) (cur : list row) (e : nat) : option (wstate * list row) :=
  if (e =? length (ws_batch st))%nat && negb (ws_eos st) then
    match child with
    | [] => None
    | (b, eos) :: rest =>
        match b with
        | [] => Some (WS rest [] (ws_offs st) (ws_next st) (ws_last st) eos (ws_fns st) (ws_returned st), cur)
        | _ =>
            match split_into_partitions gs (ws_last st) b with
            | None => None
            | Some (offs, lastk, belongs) =>
                let st' := WS rest b offs 0 lastk eos (ws_fns st) (ws_returned st) in
                if belongs then
                  match take_partition b offs 0 with
                  | None => None
                  | Some (rs, e') => extend gs rest (WS rest b offs 1 lastk eos (ws_fns st) (ws_returned st)) (cur ++ rs) e'
                  end
                else Some (st', cur)
            end
        end
    end
  else Some (st, cur).

Definition reached_limit (w : wnode) (st : wstate) : bool :=
  match w_limit w with None => false | Some l => l <=? ws_returned st end.
(* rows that are moved to the batch before the limit is reached *)
Definition room (w : wnode) (st : wstate) (n : nat) : nat :=
  match w_limit w with None => n | Some l => Nat.min n (Z.to_nat (l - ws_returned st)) end.

(* get_next (window_node.cpp:95-193); a result is the rows in the batch, eos and the state.
   [fuel]: the number of batches and rows to come *)
Fixpoint get_next (fuel : nat) (w : wnode) (cap : nat) (st : wstate) (out : list orow) : option (list orow * bool * wstate) :=
  match fuel with
  | O => None
  | S fuel =>
      if reached_limit w st then Some (out, true, st) else
      if (cap <=? length out)%nat then Some (out, false, st) else
      if ws_eos st && negb (has_cache st) then Some (out, true, st) else
      let continue st :=
        match take_partition (ws_batch st) (ws_offs st) (ws_next st) with
        | None => None
        | Some (cur, e) =>
            let st := WS (ws_child st) (ws_batch st) (ws_offs st) (S (ws_next st)) (ws_last st) (ws_eos st) (ws_fns st) (ws_returned st) in
            match extend (w_part w) (ws_child st) st cur e with
            | None => None
            | Some (st, cur) =>
                match process_one_partition (w_keys w) (w_mode w) (w_fns w) (ws_fns st) cur with
                | None => None
                | Some (is, rs) =>
                    let k := room w st (length rs) in
                    let st := WS (ws_child st) (ws_batch st) (ws_offs st) (ws_next st) (ws_last st) (ws_eos st) is (ws_returned st + Z.of_nat k) in
                    let out := out ++ firstn k rs in
                    if reached_limit w st then Some (out, true, st) else get_next fuel w cap st out
                end
            end
        end in
      if has_cache st then continue st else
      match ws_child st with
      | [] => None
      | ([], eos) :: rest => get_next fuel w cap (WS rest [] (ws_offs st) (ws_next st) (ws_last st) eos (ws_fns st) (ws_returned st)) out
      | (b, eos) :: rest =>
          match split_into_partitions (w_part w) (ws_last st) b with
          | None => None
          | Some (offs, lastk, _) => continue (WS rest b offs 0 lastk eos (ws_fns st) (ws_returned st))
          end
      end
  end.
Definition to_come (st : wstate) : nat := (length (ws_child st) + length (concat (map fst (ws_child st))) + length (ws_batch st) + 2)%nat.
(* the calls of the parent, with batches of the given capacities: the rows, and whether the end
   was reached *)
Fixpoint drain (w : wnode) (caps : list nat) (st : wstate) (out : list orow) : option (list orow * bool) :=
  match caps with
  | [] => Some (out, false)
  | c :: q =>
      match get_next (to_come st) w c st [] with
      | None => None
      | Some (rs, true, _) => Some (out ++ rs, true)
      | Some (rs, false, st) => drain w q st (out ++ rs)
      end
  end.

(* ---- planning ---- *)

Inductive sql_bound := UnboundedPreceding | NPreceding (n : Z) | CurrentRow | NFollowing (n : Z) | UnboundedFollowing.
Inductive ftype := FRows | FRange.
Record wspec := WSpec { s_part : groups; s_order : okeys; s_frame : option (ftype * sql_bound * sql_bound) }.

(* "Windowing clause not allowed with", and the functions without a frame *)
Definition rank_like (f : wfn) : bool :=
  match f with
  | WRowNumber | WRank | WDenseRank | WPercentRank | WCumeDist | WNtile _ | WLead _ _ _ | WLag _ _ _ => true
  | _ => false
  end.
(* create_window_frame_bound (logical_planner.cpp:2446-2485) and the literals in
   WindowProcessor::init (window_node.cpp:338-394): cast to INT32 *)
Definition plan_bound (b : sql_bound) : option bound :=
  match b with
  | UnboundedPreceding => Some (Bound Preceding true (-1))
  | UnboundedFollowing => Some (Bound Following true (-1))
  | CurrentRow => Some (Bound Current false (-1))
  | NPreceding n => if to_signed 32 n <? 0 then None else Some (Bound Preceding false (to_signed 32 n))
  | NFollowing n => if to_signed 32 n <? 0 then None else Some (Bound Following false (to_signed 32 n))
  end.
(* check_window_expr_valid (logical_planner.cpp:2213-2275) *)
Definition check_valid (f : wfn) (s : wspec) : bool :=
  match s_frame s with
  | None => true
  | Some (ft, a, b) =>
      negb (match s_order s with [] => true | _ => false end)
      && negb (match a with UnboundedFollowing => true | _ => false end)
      && negb (match b with UnboundedPreceding => true | _ => false end)
      && match ft with
         | FRows => true
         | FRange => negb (match a with NPreceding _ | NFollowing _ => true | _ => false end)
                     && negb (match b with NPreceding _ | NFollowing _ => true | _ => false end)
         end
      && negb (rank_like f)
  end.
(* create_window_spec (logical_planner.cpp:2332-2444): the frame of the plan; none for the
   functions above *)
Definition plan_frame (f : wfn) (s : wspec) : option (ftype * sql_bound * sql_bound) :=
  if rank_like f then None else
  match s_frame s with
  | Some fr => Some fr
  | None => Some (FRange, UnboundedPreceding, match s_order s with [] => UnboundedFollowing | _ => CurrentRow end)
  end.
(* WindowNode::init (window_node.cpp:36-60) *)
Definition mode_of (fr : option (ftype * sql_bound * sql_bound)) : option mode :=
  match fr with
  | None => Some NonFrame
  | Some (_, UnboundedPreceding, UnboundedFollowing) => Some NonFrame
  | Some (ft, a, b) =>
      match plan_bound a, plan_bound b with
      | Some x, Some y => Some (match ft with FRows => RowFrame x y | FRange => RangeFrame x y end)
      | _, _ => None
      end
  end.
(* merge_window_node (select_planner.cpp:1501-1531): the functions whose OVER clauses have the
   same text are one node, with the frame of the first one *)
Definition merge_window_node (s : wspec) (fs : list wfn) : option (list wnode) :=
  match fs with
  | [] => Some []
  | f :: _ =>
      if forallb (fun f => check_valid f s) fs
      then option_map (fun m => [WN (s_part s) (s_order s) m fs None]) (mode_of (plan_frame f s))
      else None
  end.
