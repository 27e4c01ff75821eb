(* The subscriber of the change stream over several regions (capturer). *)
From Coq Require Import List ZArith Bool.
From Verif Require Import Binlog.Spec Binlog.Model.
Import ListNotations.
Open Scope Z_scope.

Notation item := (Z * option nat)%type.

(* Capturer::_last_commit_ts and _region_binlogs_map, /repo/src/tools/baikal_capturer.h:178-179.  The request of a
   binlog is its changes (None: heartbeat). *)
Record cap := Cap { last : Z; caches : list (Z * list item) }.
Definition cap0 : cap := Cap 0 [].

Definition cache_of (c : cap) (i : Z) : list item := match get i (caches c) with Some k => k | None => [] end.

(* operator[] of std::map *)
Definition touch (m : list (Z * list item)) (i : Z) : list (Z * list item) :=
  match get i m with Some _ => m | None => put i [] m end.

(* Capturer::get_binlog_regions, baikal_capturer.cpp:795-833, for the regions [ids] the schema lists: the regions to
   read and where each is to be read from.  _skip_regions is empty outside of a tool. *)
Definition regions_step (ids : list Z) (max_cache : nat) (commit_ts : Z) (c : cap) : cap * list (Z * Z) :=
  if commit_ts =? last c then
    let c' := Cap (last c) (fold_left touch ids (caches c)) in
    (c', flat_map (fun i => if (max_cache <? length (cache_of c' i))%nat then []
                            else [(i, last_ts (last c') (cache_of c' i))]) ids)
  else (Cap commit_ts [], map (fun i => (i, commit_ts)) ids).

(* Capturer::insert_binlog, baikal_capturer.h:119-121, over the binlogs of one region (MergeBinlog::run,
   baikal_capturer.cpp:172-201). *)
Definition insert_all (c : cap) (i : Z) (r : list item) : cap :=
  Cap (last c) (put i (fold_left (fun m e => put (fst e) (snd e) m) r (cache_of c i)) (caches c)).

Fixpoint take_upto (m : Z) (l : list item) : list item :=
  match l with [] => [] | e :: rest => if fst e <=? m then e :: take_upto m rest else [] end.
Fixpoint drop_upto (m : Z) (l : list item) : list item :=
  match l with [] => [] | e :: rest => if fst e <=? m then drop_upto m rest else l end.

(* BinLogPriorityQueue, baikal_capturer.h:48-65: the smallest commit time stamp first. *)
Fixpoint enqueue (e : Z * item) (q : list (Z * item)) : list (Z * item) :=
  match q with
  | [] => [e]
  | x :: rest => if fst (snd e) <=? fst (snd x) then e :: q else x :: enqueue e rest
  end.
Definition in_order_of (l : list (Z * item)) : list (Z * item) := fold_right enqueue [] l.

Definition int64_max : Z := 9223372036854775807.

(* Capturer::merge_binlog, baikal_capturer.cpp:835-856. *)
Definition merge (c : cap) : list (Z * item) :=
  if existsb (fun ik => match snd ik with [] => true | _ => false end) (caches c) then []
  else
    let m := fold_left Z.min (map (fun ik => last_ts 0 (snd ik)) (caches c)) int64_max in
    in_order_of (flat_map (fun ik => map (pair (fst ik)) (take_upto m (snd ik))) (caches c)).

(* Capturer::update_commit_ts, baikal_capturer.cpp:858-871. *)
Definition update_commit_ts (c : cap) (p : Z) : cap :=
  Cap p (map (fun ik => (fst ik, drop_upto p (snd ik))) (caches c)).

Fixpoint last_taken (d : Z) (q : list (Z * item)) : Z :=
  match q with [] => d | e :: rest => last_taken (fst (snd e)) rest end.

(* Capturer::subscribe, baikal_capturer.cpp:743-793, with FetchBinlog::run (24-115).  [answers]: for each region the
   first answer with binlogs, if one comes before the time is up; the rounds of FetchBinlog::run ask for the same
   position until then.  [ok]: the events can be made (BinLogTransfer::run).  Returns the new position and what is
   delivered. *)
Definition subscribe (ids : list Z) (max_cache : nat) (ok : bool) (answers : Z -> option (list item))
    (commit_ts : Z) (c : cap) : cap * Z * list (Z * item) :=
  let '(c1, want) := regions_step ids max_cache commit_ts c in
  if forallb (fun ip => match answers (fst ip) with Some (_ :: _) => true | _ => false end) want then
    let c2 := fold_left (fun c ip => insert_all c (fst ip) (match answers (fst ip) with Some r => r | None => [] end)) want c1 in
    let q := merge c2 in
    if ok then
      let p := last_taken commit_ts q in
      if p <? commit_ts then (c2, commit_ts, []) else (update_commit_ts c2 p, p, q)
    else (c2, commit_ts, [])
  else (c1, commit_ts, []).

(* BinLogTransfer::run, baikal_capturer.cpp:251-350, the loop alone.  [wanted]: the filters of a flash back read, None
   for a subscription; a transaction that is not wanted is left in the queue (lines 262-276).  [fuel]: how often the
   loop is entered; None: it is still running. *)
Fixpoint transfer (fuel : nat) (wanted : option (Z * nat -> bool)) (q out : list (Z * item)) : option (list (Z * item)) :=
  match fuel with
  | O => None
  | S fuel' =>
      match q with
      | [] => Some out
      | (i, (t, None)) :: rest => transfer fuel' wanted rest (match wanted with None => out ++ [(i, (t, None))] | Some _ => out end)
      | (i, (t, Some v)) :: rest =>
          match wanted with
          | None => transfer fuel' wanted rest (out ++ [(i, (t, Some v))])
          | Some f => if f (t, v) then transfer fuel' wanted rest (out ++ [(i, (t, Some v))])
                      else transfer fuel' wanted q out
          end
      end
  end.
