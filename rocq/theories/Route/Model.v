(* The routing table of a BaikalDB frontend: from keys to regions.

   Models src/common/schema_factory.cpp of baidu/BaikalDB:
     update_regions_double_buffer 1229-1257, update_region 1282-1309,
     clear_region 1310-1324, get_clear_regions 1326-1378, update_regions_table 1380-1510,
     check_region_ranges_consecutive 2996-3032, get_region_by_key (ranges) 3040-3215,
     get_region_by_key (regions) 3219-3267, get_region_by_key (records) 3269-3345;
   and end_key_compare, include/common/table_key.h 22-33.

   Simplifications: one table and one partition of it (the maps of different tables and
   partitions are separate; only the region id -> region map is shared by the partitions
   of a table); a region carries only the fields the code looks at; the DoublyBufferedData
   wrapper applies the same function to both copies and is not modelled; log lines are
   dropped. *)
From Verif.Common Require Import Bytes KV.
From Coq Require Import List ZArith Bool.
Import ListNotations.
Local Open Scope Z_scope.

Definition key := list Z.

(* pb::RegionInfo: region_id, start_key, end_key, version, deleted *)
Record region := { r_id : Z; r_start : key; r_end : key; r_ver : Z; r_deleted : bool }.

(* TableRegionInfo, include/common/schema_factory.h 78-107: key_region_mapping of one
   partition (a std::map, so a sorted list) and region_info_mapping *)
Record table := { t_keys : @kv Z; t_infos : Z -> option region }.
Definition empty_table : table := {| t_keys := []; t_infos := fun _ => None |}.

Definition isnil (k : key) : bool := match k with [] => true | _ => false end.

(* end_key_compare, include/common/table_key.h 22-33: the empty key is the greatest *)
Definition end_key_compare (a b : key) : comparison :=
  if beqb a b then Eq
  else if isnil a then Gt
  else if isnil b then Lt
  else bcompare a b.

(* boost::starts_with *)
Fixpoint starts_with (s p : key) : bool :=
  match p, s with
  | [], _ => true
  | b :: p', c :: s' => (b =? c) && starts_with s' p'
  | _ :: _, [] => false
  end.

(* ---- std::map iterators: what is before (nearest first) and what is from here on ---- *)
Fixpoint skip_while (p : key -> bool) (before rest : @kv Z) : @kv Z * @kv Z :=
  match rest with
  | (k, v) :: rest' => if p k then skip_while p ((k, v) :: before) rest' else (before, rest)
  | [] => (before, [])
  end.
Definition upper_bound (k : key) (m : @kv Z) := skip_while (fun x => bleb x k) [] m.
Definition lower_bound (k : key) (m : @kv Z) := skip_while (fun x => bltb x k) [] m.
(* std::map::insert: an existing mapping is kept *)
Definition map_insert (k : key) (v : Z) (m : @kv Z) : @kv Z :=
  match kget k m with Some _ => m | None => kput k v m end.

Definition set_info (f : Z -> option region) (i : Z) (o : option region) : Z -> option region :=
  fun j => if j =? i then o else f j.

(* ---- lookups ---- *)

(* get_region_by_key for one record, 3331-3342 (after its key has been encoded):
   None is the silent [continue] of line 3336 *)
Definition route_record (t : table) (k : key) : option Z :=
  match upper_bound k (t_keys t) with
  | ([], _) => None
  | ((_, id) :: _, _) => Some id
  end.

(* one index range, after left_open / right_open were taken from the index or the range
   (3106-3108): pb::PossibleIndex::Range left_key, left_full, left_open, right_key, right_open *)
Record range := { g_left : key; g_full : bool; g_lopen : bool; g_right : key; g_ropen : bool }.

Fixpoint take_regions (stop : key) (ropen : bool) (m : @kv Z) : list Z :=
  match m with
  | [] => []
  | (k, id) :: m' =>
      if isnil stop || bleb k stop || (negb ropen && starts_with k stop)
      then id :: take_regions stop ropen m' else []
  end.

(* get_region_by_key for one range, 3109-3190; is_eq is pb::PossibleIndex::is_eq *)
Definition route_range (t : table) (is_eq : bool) (g : range) : list Z :=
  let start := g_left g in
  let lopen := if isnil (g_left g) then false else g_lopen g in
  let stop := if is_eq then start else g_right g in
  let ropen := if is_eq then lopen else if isnil (g_right g) then false else g_ropen g in
  let sentinel := if negb (g_full g) && lopen then start ++ [255; 255] else start in
  let '(before, rest) := upper_bound sentinel (t_keys t) in
  let '(before, rest) := if lopen then skip_while (fun k => starts_with k start) before rest
                         else (before, rest) in
  let from := match before with [] => rest | e :: _ => e :: rest end in
  take_regions stop ropen from.

(* get_region_by_key for several ranges, 3103-3214: region_idx_map, the ranges each region
   is asked for.  For one range only (range_size = 1) every region gets the whole list. *)
Fixpoint add_idx (id : Z) (i : nat) (m : list (Z * list nat)) : list (Z * list nat) :=
  match m with
  | [] => [(id, [i])]
  | (j, l) :: m' => if id =? j then (j, l ++ [i]) :: m' else (j, l) :: add_idx id i m'
  end.
Fixpoint route_ranges_from (t : table) (is_eq : bool) (i : nat) (gs : list range)
  (acc : list (Z * list nat)) : list (Z * list nat) :=
  match gs with
  | [] => acc
  | g :: gs' =>
      route_ranges_from t is_eq (S i) gs'
        (fold_left (fun m id => add_idx id i m) (route_range t is_eq g) acc)
  end.
Definition route_ranges (t : table) (is_eq : bool) (gs : list range) : list (Z * list nat) :=
  route_ranges_from t is_eq 0 gs [].

(* get_region_by_key for a list of old regions, 3219-3267: which regions hold what was in
   [start, end) when a transaction wrote it *)
Fixpoint take_until (stop : key) (m : @kv Z) : list Z :=
  match m with
  | [] => []
  | (k, id) :: m' => if isnil stop || bltb k stop then id :: take_until stop m' else []
  end.
Definition route_region (t : table) (start stop : key) : list Z :=
  let '(before, rest) := upper_bound start (t_keys t) in
  take_until stop (match before with [] => rest | e :: _ => e :: rest end).

(* check_region_ranges_consecutive, 3014-3030: 0 is true, -1 is false.  A region missing
   from region_info_mapping leaves a default pb::RegionInfo (empty keys). *)
Fixpoint consecutive_from (t : table) (prev : key) (m : @kv Z) : bool :=
  match m with
  | [] => isnil prev
  | (_, id) :: m' =>
      let '(s, e) := match t_infos t id with Some r => (r_start r, r_end r) | None => ([], []) end in
      beqb s prev && consecutive_from t e m'
  end.
Definition check_consecutive (t : table) : bool := consecutive_from t [] (t_keys t).

(* ---- updates ---- *)

(* update_region, 1282-1309 *)
Definition update_region (t : table) (r : region) : table :=
  if r_deleted r then
    {| t_keys := kdel (r_start r) (t_keys t); t_infos := set_info (t_infos t) (r_id r) None |}
  else
    let old_ver := match t_infos t (r_id r) with Some o => r_ver o | None => 0 end in
    if r_ver r <? old_ver then t
    else {| t_keys := map_insert (r_start r) (r_id r) (t_keys t);
            t_infos := set_info (t_infos t) (r_id r) (Some r) |}.

(* clear_region, 1310-1324 *)
Definition clear_region (t : table) (cs : @kv Z) : table :=
  fold_left (fun t c => {| t_keys := kdel (fst c) (t_keys t);
                           t_infos := set_info (t_infos t) (snd c) None |}) cs t.

(* the loop of get_clear_regions, 1341-1377, from the found iterator on *)
Fixpoint collect_clear (t : table) (k origin : key) (over : bool) (acc rest : @kv Z) : @kv Z :=
  match rest with
  | [] => acc
  | (k', id) :: rest' =>
      if isnil k || bltb origin k then (if over then acc else [])
      else if negb (beqb k k') then []
      else match t_infos t id with
           | None => []
           | Some r =>
               let over' := if beqb (r_end r) origin then true else over in
               collect_clear t (r_end r) origin over' (kput k id acc) rest'
           end
  end.
(* get_clear_regions, 1326-1378; find() is lower_bound with an equality test.  The first
   round tests the new start key itself: if it is empty nothing is collected. *)
Definition get_clear_regions (t : table) (new_start origin : key) : @kv Z :=
  match lower_bound new_start (t_keys t) with
  | (_, (k, id) :: rest) =>
      if beqb k new_start then collect_clear t new_start origin false [] ((k, id) :: rest)
      else []
  | (_, []) => []
  end.

(* the variables of update_regions_table's loop: last_regions, clear_regions, end_key *)
Record upd := { u_tab : table; u_last : list region; u_clear : @kv Z; u_end : key }.
Definition drop_pending (u : upd) (t : table) : upd :=
  {| u_tab := t; u_last := []; u_clear := []; u_end := u_end u |}.

Definition last_end (rs : list region) : key :=
  match rev rs with r :: _ => r_end r | [] => [] end.

(* one round of the loop, 1404-1505 *)
Definition update_step (u : upd) (r : region) : upd :=
  let t := u_tab u in
  match t_infos t (r_id r) with
  | None =>
      match u_last u with
      | _ :: _ =>
          if negb (beqb (last_end (u_last u)) (r_start r)) then drop_pending u t
          else
            let last := u_last u ++ [r] in
            if beqb (r_end r) (u_end u) then
              drop_pending u (fold_left update_region last (clear_region t (u_clear u)))
            else match end_key_compare (r_end r) (u_end u) with
                 | Gt => drop_pending u t
                 | _ => {| u_tab := t; u_last := last; u_clear := u_clear u; u_end := u_end u |}
                 end
      | [] =>
          match lower_bound (r_start r) (t_keys t) with
          | ((_, pre) :: _, _) =>
              let pre_end := match t_infos t pre with Some o => r_end o | None => [] end in
              match end_key_compare pre_end (r_start r) with
              | Gt => u
              | _ => {| u_tab := update_region t r; u_last := u_last u; u_clear := u_clear u; u_end := u_end u |}
              end
          | ([], _) => {| u_tab := update_region t r; u_last := u_last u; u_clear := u_clear u; u_end := u_end u |}
          end
      end
  | Some o =>
      if r_ver o <? r_ver r then
        let u := drop_pending u t in
        if bltb (r_start r) (r_start o) then
          match end_key_compare (r_end r) (r_end o) with
          | Lt =>
              let cs := get_clear_regions t (r_start r) (r_start o) in
              if (length cs <? 2)%nat then u
              else {| u_tab := t; u_last := [r]; u_clear := cs; u_end := r_end o |}
          | Eq =>
              let cs := get_clear_regions t (r_start r) (r_start o) in
              (* clear_regions keeps its value here; nothing reads it before it is cleared *)
              if (length cs <? 2)%nat then {| u_tab := t; u_last := []; u_clear := cs; u_end := u_end u |}
              else {| u_tab := update_region (clear_region t cs) r; u_last := []; u_clear := cs; u_end := u_end u |}
          | Gt => u
          end
        else if beqb (r_start r) (r_start o) then
          match end_key_compare (r_end r) (r_end o) with
          | Lt => {| u_tab := t; u_last := [r]; u_clear := []; u_end := r_end o |}
          | Eq => drop_pending u (update_region t r)
          | Gt => u
          end
        else u
      else {| u_tab := update_region t r; u_last := u_last u; u_clear := u_clear u; u_end := u_end u |}
  end.

(* table_key_region_map of update_regions_double_buffer, 1229-1247: by start key, later
   regions replace earlier ones, regions with an empty range are left out *)
Definition by_start (rs : list region) : list region :=
  map snd (fold_left (fun m r =>
    if negb (isnil (r_start r)) && beqb (r_start r) (r_end r) then m
    else kput (r_start r) r m) rs ([] : @kv region)).

(* update_regions_table, 1380-1510, for the regions of one partition *)
Definition update_regions (t : table) (rs : list region) : table :=
  u_tab (fold_left update_step (by_start rs)
           {| u_tab := t; u_last := []; u_clear := []; u_end := [] |}).
