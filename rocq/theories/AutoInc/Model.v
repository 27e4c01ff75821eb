(* Model of auto-increment ids: src/meta_server/auto_incr_state_machine.cpp (the
   replicated id service) and src/physical_plan/auto_inc.cpp (the INSERT side).
   uint64 values are Z in [0,2^64); every addition wraps modulo 2^64. *)
From Coq Require Import String.
From Coq Require Export ZArith List Bool Lia.
From Coq Require Import DecimalZ DecimalString Decimal.
Export ListNotations.
Local Open Scope list_scope.
Local Open Scope Z_scope.

Definition u64 (x : Z) : Z := x mod 2 ^ 64.

(* _auto_increment_map: std::unordered_map<int64_t, uint64_t> *)
Definition idmap := list (Z * Z).
Fixpoint lookup (t : Z) (m : idmap) : option Z :=
  match m with [] => None | (k, v) :: m' => if k =? t then Some v else lookup t m' end.
Fixpoint erase (t : Z) (m : idmap) : idmap :=
  match m with [] => [] | (k, v) :: m' => if k =? t then erase t m' else (k, v) :: erase t m' end.
Definition assign (t v : Z) (m : idmap) : idmap := (t, v) :: erase t m.

(* the four operations; optional protobuf fields are options.  An absent count
   reads as 0. *)
Inductive op :=
| OAdd (t start : Z) (force : bool)
| ODrop (t : Z)
| OGen (t count : Z) (start : option Z)
| OUpdate (t : Z) (start incr : option Z) (force : bool).

(* what the response says: error, success, or (start_id, end_id) of gen_id *)
Inductive resp := RErr | ROk | RIds (start end_ : Z).

(* auto_incr_state_machine.cpp:87-116 *)
Definition add_table_id (m : idmap) (t start : Z) (force : bool) : idmap * resp :=
  match lookup t m with
  | Some _ => (m, if force then ROk else RErr)
  | None => (assign t start m, ROk)
  end.
(* auto_incr_state_machine.cpp:117-134 *)
Definition drop_table_id (m : idmap) (t : Z) : idmap * resp :=
  match lookup t m with None => (m, RErr) | Some _ => (erase t m, ROk) end.
(* auto_incr_state_machine.cpp:135-158 *)
Definition gen_id (m : idmap) (t count : Z) (start : option Z) : idmap * resp :=
  match lookup t m with
  | None => (m, RErr)
  | Some old =>
      let old' := match start with
                  | Some s => if old <? u64 (s + 1) then u64 (s + 1) else old
                  | None => old end in
      (assign t (u64 (old' + count)) m, RIds old' (u64 (old' + count)))
  end.
(* auto_incr_state_machine.cpp:159-202 *)
Definition update (m : idmap) (t : Z) (start incr : option Z) (force : bool) : idmap * resp :=
  match lookup t m with
  | None => (m, RErr)
  | Some old =>
      match start, incr with
      | None, None => (m, RErr)
      | Some _, Some _ => (m, RErr)
      | Some s, None =>
          if (u64 (s + 1) <? old) && negb force then (m, RErr)
          else (assign t (u64 (s + 1)) m, ROk)
      | None, Some i => (assign t (u64 (old + i)) m, ROk)
      end
  end.
(* auto_incr_state_machine.cpp:60-81 *)
Definition apply_op (m : idmap) (o : op) : idmap * resp :=
  match o with
  | OAdd t s f => add_table_id m t s f
  | ODrop t => drop_table_id m t
  | OGen t c s => gen_id m t c s
  | OUpdate t s i f => update m t s i f
  end.
(* the committed log applied from a state: final map and the response to each entry *)
Fixpoint apply_log (m : idmap) (l : list op) : idmap * list resp :=
  match l with
  | [] => (m, [])
  | o :: l' => let (m', r) := apply_op m o in
               let (m'', rs) := apply_log m' l' in (m'', r :: rs)
  end.

(* ---- snapshot: lines 233-299.  The JSON object is its list of members; a number
   is its decimal text (rapidjson's quoting and separators are not modelled). ---- *)
Definition dec (z : Z) : string := NilZero.string_of_int (Z.to_int z).
Definition undec (s : string) : option Z :=
  match NilZero.int_of_string s with Some i => Some (Z.of_int i) | None => None end.
Definition save_auto_increment (m : idmap) : list (string * string) :=
  map (fun kv => (dec (fst kv), dec (snd kv))) m.
Fixpoint parse_members (js : list (string * string)) (m : idmap) : option idmap :=
  match js with
  | [] => Some m
  | (k, v) :: js' =>
      match undec k, undec v with
      | Some t, Some x => parse_members js' (assign t x m)
      | _, _ => None
      end
  end.
(* line 271-277: the map is cleared first *)
Definition load_auto_increment (js : list (string * string)) : option idmap := parse_members js [].

(* a replica: map, number of log entries applied, last snapshot *)
Record replica := mk_replica { r_map : idmap; r_applied : nat; r_snap : nat * list (string * string) }.
Inductive rstep := RApply | RSnap | RRestart.
Definition replica_step (log : list op) (r : replica) (s : rstep) : option replica :=
  match s with
  | RApply => match nth_error log (r_applied r) with
              | Some o => Some (mk_replica (fst (apply_op (r_map r) o)) (S (r_applied r)) (r_snap r))
              | None => None end
  | RSnap => Some (mk_replica (r_map r) (r_applied r) (r_applied r, save_auto_increment (r_map r)))
  | RRestart => match load_auto_increment (snd (r_snap r)) with
                | Some m => Some (mk_replica m (fst (r_snap r)) (r_snap r))
                | None => None end
  end.
Fixpoint replica_run (log : list op) (r : replica) (ss : list rstep) : option replica :=
  match ss with
  | [] => Some r
  | s :: ss' => match replica_step log r s with Some r' => replica_run log r' ss' | None => None end
  end.
Definition init_replica : replica := mk_replica [] 0 (0%nat, []).

(* ---- the INSERT side: auto_inc.cpp:51-137 ---- *)

(* value.get_numberic<int64_t>() for a BIGINT (signed or unsigned) column *)
Definition as_int64 (v : Z) : Z := let u := v mod 2 ^ 64 in if u <? 2 ^ 63 then u else u - 2 ^ 64.
(* a row's auto-increment column: None = NULL or absent *)
Definition needs_id (v : option Z) : bool :=
  match v with None => true | Some x => as_int64 x =? 0 end.
(* lines 57-69 *)
Fixpoint scan (rows : list (option Z)) (cnt mx : Z) : Z * Z :=
  match rows with
  | [] => (cnt, mx)
  | v :: rows' =>
      if needs_id v then scan rows' (cnt + 1) mx
      else match v with
           | Some x => scan rows' cnt (if mx <? as_int64 x then as_int64 x else mx)
           | None => scan rows' cnt mx
           end
  end.
(* lines 127-135; start_id++ is int64 *)
Fixpoint fill (rows : list (option Z)) (start : Z) : list (option Z) :=
  match rows with
  | [] => []
  | v :: rows' => if needs_id v then Some start :: fill rows' (start + 1) else v :: fill rows' start
  end.
Inductive ins_res :=
| InsErr                                                   (* the statement fails *)
| InsOk (rows : list (option Z)) (last_id : option Z).     (* last_insert_id if set *)
(* [degrade] = Some r: FLAGS_meta_tso_autoinc_degrade, need_degrade and
   auto_inc_rand_max > 0 hold and fast_rand() % max is r; otherwise the id service
   is asked: the request sent (if any) and what is done with the response. *)
Definition ins_request (t : Z) (noskip : bool) (rows : list (option Z)) : option op :=
  let (cnt, mx) := scan rows 0 0 in
  let mx := if noskip then 0 else mx in
  if (cnt =? 0) && (mx =? 0) then None else Some (OGen t cnt (Some mx)).
Definition update_auto_inc (t : Z) (noskip : bool) (degrade : option Z) (m : idmap) (rows : list (option Z))
  : idmap * ins_res :=
  let (cnt, mx0) := scan rows 0 0 in
  let mx := if noskip then 0 else mx0 in
  if (cnt =? 0) && (mx =? 0) then (m, InsOk rows None)
  else match degrade with
       | Some r => if cnt =? 0 then (m, InsOk rows None)
                   else (m, InsOk (fill rows r) (Some r))
       | None =>
           match gen_id m t cnt (Some mx) with
           | (m', RIds start _) =>
               if cnt =? 0 then (m', InsOk rows (if 0 <? mx then Some mx else None))
               else (m', InsOk (fill rows start) (Some start))
           | (m', _) => (m', InsErr)
           end
       end.

(* a history at the id service: administrative operations and INSERT statements *)
Inductive event := EvOp (o : op) | EvIns (t : Z) (noskip : bool) (rows : list (option Z)).
Definition do_event (m : idmap) (e : event) : idmap * option ins_res :=
  match e with
  | EvOp o => (fst (apply_op m o), None)
  | EvIns t ns rows => let (m', r) := update_auto_inc t ns None m rows in (m', Some r)
  end.
Fixpoint history (m : idmap) (es : list event) : list (option ins_res) :=
  match es with
  | [] => []
  | e :: es' => let (m', r) := do_event m e in r :: history m' es'
  end.
