(* The binlog region: applying log entries, the check point, restart, reading. *)
From Coq Require Import List ZArith Bool.
From Verif Require Import Binlog.Spec.
Import ListNotations.
Open Scope Z_scope.

(* std::map with int64 keys, and the rows of a region in key order (keys of integers sort like the integers, C01). *)
Fixpoint put {V} (k : Z) (v : V) (m : list (Z * V)) : list (Z * V) :=
  match m with
  | [] => [(k, v)]
  | (k', v') :: rest => if k <? k' then (k, v) :: m else if k =? k' then (k, v) :: rest else (k', v') :: put k v rest
  end.
Fixpoint get {V} (k : Z) (m : list (Z * V)) : option V :=
  match m with
  | [] => None
  | (k', v') :: rest => if k =? k' then Some v' else get k rest
  end.
Definition del {V} (k : Z) (m : list (Z * V)) : list (Z * V) := filter (fun kv => negb (fst kv =? k)) m.

(* A row of the binlog table: binlog_type, start_ts, binlog_row_cnt; the key is ts
   (/repo/src/store/region_binlog.cpp:862-868). *)
Record brow := Row { r_kind : kind; r_start : Z; r_cnt : Z }.

(* BinlogParam, /repo/include/store/region.h:1465-1472, with the rows (data column family), the changes filed
   under the start time stamp (binlog column family, written with the raft log entry) and the check point on disk.
   timeout_start_ts_done only suppresses warnings and data_cf_oldest_ts and the removal of old binlogs are left out. *)
Record st := St { rows : list (Z * brow); vals : list (Z * nat); saved : Z; saved_old : Z;
                  tsmap : list (Z * kind); max_ts : Z; cp : Z; oldest : Z }.
Definition st0 : st := St [] [] (-1) (-1) [] (-1) (-1) (-1).

Definition set_mem (s : st) (m : list (Z * kind)) (mx c : Z) : st :=
  St (rows s) (vals s) (saved s) (saved_old s) m mx c (oldest s).

(* The first key of the map, or [d]. *)
Definition first_key (m : list (Z * kind)) (d : Z) : Z := match m with [] => d | (k, _) :: _ => k end.

(* Region::binlog_update_map_when_apply, region_binlog.cpp:659-785. *)
Definition update_map_apply (s : st) (o : op) : st :=
  let done m := set_mem s m (Z.max (max_ts s) (o_ts o)) (first_key m (o_ts o)) in
  if cp s =? -1 then
    match o_kind o with
    | Fake => St (rows s) (vals s) (o_ts o) (o_ts o) (put (o_ts o) Fake (tsmap s))
                 (Z.max (max_ts s) (o_ts o)) (o_ts o) (o_ts o)
    | _ => s
    end
  else
    match o_kind o with
    | Fake => if o_ts o <=? cp s then s else done (put (o_ts o) Fake (tsmap s))
    | Prewrite => done (put (o_ts o) Prewrite (tsmap s))
    | Commit | Rollback =>
        if o_start o <? cp s then s
        else match get (o_start o) (tsmap s) with
             | None => s
             | Some _ => done (del (o_start o) (tsmap s))
             end
    end.

Fixpoint drop_fakes (m : list (Z * kind)) : list (Z * kind) :=
  match m with
  | [] => []
  | (k, Prewrite) :: _ => m
  | _ :: rest => drop_fakes rest
  end.

(* Region::binlog_update_check_point, region_binlog.cpp:788-828.  [persist]: ten seconds have passed since
   the check point was written to disk. *)
Definition update_check_point (persist : bool) (s : st) : st :=
  if cp s =? -1 then s
  else
    let m := drop_fakes (tsmap s) in
    let c := first_key m (max_ts s) in
    let c' := if cp s <? c then c else cp s in
    St (rows s) (vals s) (if persist then c else saved s) (saved_old s) m (max_ts s) c' (oldest s).

(* Region::write_binlog_value and write_binlog_record, region_binlog.cpp:830-906: the row and the applied
   index in one batch; the log entry of a prewrite is found in the binlog column family. *)
Definition write_row (s : st) (o : op) : st :=
  St (put (o_ts o) (Row (o_kind o) (o_start o) (o_cnt o)) (rows s))
     (match o_kind o with Prewrite => put (o_ts o) (o_val o) (vals s) | _ => vals s end)
     (saved s) (saved_old s) (tsmap s) (max_ts s) (cp s) (oldest s).

(* Region::apply_binlog, region_binlog.cpp:908-963. *)
Definition apply_op (persist : bool) (s : st) (o : op) : st :=
  update_check_point persist (update_map_apply (write_row s o) o).

(* Region::binlog_update_map_when_scan, region_binlog.cpp:598-656. *)
Definition update_map_scan (s : st) (tr : Z * brow) : st :=
  let ts := fst tr in
  let r := snd tr in
  let done m := set_mem s m (Z.max (max_ts s) ts) (first_key m ts) in
  if ts <? max_ts s then s
  else
    match r_kind r with
    | Fake => done (put ts Fake (tsmap s))
    | Prewrite => done (put ts Prewrite (tsmap s))
    | Commit | Rollback =>
        if r_start r <? cp s then s
        else match get (r_start r) (tsmap s) with
             | None => s
             | Some _ => done (del (r_start r) (tsmap s))
             end
    end.

(* A restart of the store: Region::binlog_reset_on_snapshot_load_restart and binlog_scan_when_restart,
   region_binlog.cpp:445-596.  Entries up to the applied index are not applied again (region.cpp:3500-3506), and
   the applied index is written together with the row.  *)
Definition restart (persist : bool) (s : st) : st :=
  let s1 := St (rows s) (vals s) (saved s) (saved_old s) [] (-1) (saved s) (saved_old s) in
  let s2 := if 0 <? saved s
            then update_check_point persist
                   (fold_left update_map_scan (filter (fun tr => saved s <=? fst tr) (rows s)) s1)
            else s1 in
  if oldest s2 <? 0
  then St (rows s2) (vals s2) (saved s2) (cp s2) (tsmap s2) (max_ts s2) (cp s2) (cp s2)
  else s2.

(* ---------- reading ---------- *)

Inductive answer := TooOld | Failed | Ok (r : list (Z * option nat)).

(* BinlogReadMgr::multiget, region_binlog.cpp:1025-1091, over a batch: the changes of every commit are there. *)
Definition have_all (v : list (Z * nat)) (pend : list (Z * Z)) : bool :=
  forallb (fun cs => (fst cs =? snd cs) || match get (snd cs) v with Some _ => true | None => false end) pend.

(* The binlogs of a batch; a heartbeat is one whose two time stamps are the same. *)
Definition entry (v : list (Z * nat)) (cs : Z * Z) : Z * option nat :=
  (fst cs, if fst cs =? snd cs then None else get (snd cs) v).

(* BinlogReadMgr::get_binlog_finish, region_binlog.cpp:1326-1358.  [room]: how many more binlogs
   binlog_add_to_response (995-1023) takes before it refuses because of size, time or memory. *)
Definition finish (v : list (Z * nat)) (pend : list (Z * Z)) (room : nat) (out : list (Z * option nat)) : answer :=
  if have_all v pend then Ok (out ++ firstn room (map (entry v) pend)) else Failed.

(* The loop of Region::read_binlog, region_binlog.cpp:1565-1642, with BinlogReadMgr::get_binlog_value (1206-1293):
   binlogs are collected in batches of [batch], each batch ordered by commit time stamp. *)
Fixpoint read_loop (batch : nat) (v : list (Z * nat)) (old begin_ts check : Z) (l : list (Z * brow))
    (cnt : Z) (room : nat) (pend : list (Z * Z)) (out : list (Z * option nat)) : answer :=
  match l with
  | [] => finish v pend room out
  | (ts, r) :: rest =>
      let add cs cnt' :=
        let pend' := pend ++ [cs] in
        if (length pend' <? batch)%nat then read_loop batch v old begin_ts check rest cnt' room pend' out
        else if have_all v pend' then
          let out' := out ++ firstn room (map (entry v) pend') in
          if (room <? length pend')%nat then Ok out'
          else read_loop batch v old begin_ts check rest cnt' (room - length pend') [] out'
        else Failed in
      if (ts <? begin_ts) || (check <? ts) then finish v pend room out
      else match r_kind r with
           | Fake => if begin_ts <? ts then add (ts, ts) cnt
                     else read_loop batch v old begin_ts check rest cnt room pend out
           | Commit =>
               if ts =? begin_ts then read_loop batch v old begin_ts check rest cnt room pend out
               else if r_start r <? old then TooOld
               else if cnt <? 0 then finish v pend room out
               else add (ts, r_start r) (cnt - (if r_cnt r <=? 0 then 1 else r_cnt r))
           | _ => read_loop batch v old begin_ts check rest cnt room pend out
           end
  end.

(* Region::read_binlog, region_binlog.cpp:1420-1655, without flash back and the cache of answers (off by
   default). *)
Definition read_binlog (s : st) (begin_ts cnt : Z) (room batch : nat) : answer :=
  if cp s <? 0 then Failed
  else if oldest s <? 0 then Failed
  else if begin_ts =? 0 then Failed
  else if begin_ts <? oldest s then TooOld
  else if cp s <=? begin_ts then Ok []
  else read_loop batch (vals s) (oldest s) begin_ts (cp s)
         (filter (fun tr => begin_ts <=? fst tr) (rows s)) cnt room [] [].

(* A replica: it applies the entries of the log one after the other and may be restarted at any time, if the
   check point on disk is there and no undecided transaction is older than it. *)
Inductive replica : list op -> st -> Prop :=
| r_init : replica [] st0
| r_apply : forall l s o persist, replica l s -> replica (l ++ [o]) (apply_op persist s o)
| r_restart : forall l s persist, replica l s ->
    l = [] \/ 0 < saved s -> (forall t, pending l t -> saved s <= t) -> replica l (restart persist s).

(* The same without the condition on restarts. *)
Inductive any_replica : list op -> st -> Prop :=
| a_init : any_replica [] st0
| a_apply : forall l s o persist, any_replica l s -> any_replica (l ++ [o]) (apply_op persist s o)
| a_restart : forall l s persist, any_replica l s -> any_replica l (restart persist s).
