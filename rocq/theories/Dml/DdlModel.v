(* The filling of an index that is being added, and statements cut in batches *)
From Verif.Dml Require Import Model.
Local Open Scope Z_scope.

(* RocksdbScanNode::index_ddl_work, rocksdb_scan_node.cpp:1165-1324, for a KEY or UNIQUE index
   of the region: the row is locked and read, its record is written with the row's own expiry
   time.  None: the ALTER fails with a duplicate entry.  The rows come from a scan of the
   table (process_ddl_work, 1326-1351) *)
Definition backfill (ev : env) (ix : index) (st : store) (q : list cell) : option store :=
  let tb := e_tb ev in
  match get_primary ev st q (key_rec tb q) (index_fields tb [ix]) with
  | Found e r =>
      let w := if tb_ttl tb then e else 0 in
      if ix_uniq ix then
        match get_secondary ev st ix r with
        | Found _ old => if cells_dec (proj old (tb_pk tb)) q then Some st else None
        | _ => Some (put_secondary st ix r w)
        end
      else Some (put_secondary st ix r w)
  | _ => Some st
  end.
Fixpoint backfill_all (ev : env) (ix : index) (st : store) (qs : list (list cell)) : option store :=
  match qs with
  | [] => Some st
  | q :: qs' => match backfill ev ix st q with None => None | Some st' => backfill_all ev ix st' qs' end
  end.

(* UpdateNode::open and DeleteNode::open take the rows of the scan in batches.  Outside a
   transaction (auto) every batch but the last is committed on its own (update_node.cpp:83-133,
   delete_node.cpp:80-131).  The result: what is committed once the statement has ended (an
   error rolls back what is not) and what it answers *)
Fixpoint batches {A} (f : ctx -> A -> option (ctx * Z)) (auto : bool) (committed : store) (c : ctx)
    (bs : list (list A)) (n : Z) : store * option (ctx * Z) :=
  match bs with
  | [] => (c_st c, Some (c, n))
  | b :: bs' => match each f c b n with
                | None => (committed, None)
                | Some (c', n') => batches f auto (if auto then c_st c' else committed) c' bs' n'
                end
  end.
Definition update_batches (ev : env) (s : stmt) (auto : bool) (st : store) (bs : list (list (list cell))) : store * option (ctx * Z) :=
  batches (fun c p => update_row ev s [] c (key_rec (e_tb ev) p)) auto st (start ev s st) bs 0.
Definition delete_batches (ev : env) (s : stmt) (auto : bool) (st : store) (bs : list (list (list cell))) : store * option (ctx * Z) :=
  batches (fun c p => delete_row ev s c (tb_indexes (e_tb ev)) (key_rec (e_tb ev) p)) auto st (start ev s st) bs 0.
