(* What a routing table has to do, in words of keys, regions and ranges only.  Of the model
   only the record types (region, table, range) and the key order are used. *)
From Verif.Common Require Import Bytes KV.
From Verif.Route Require Import Model.
From Coq Require Import List ZArith.
Import ListNotations.
Local Open Scope Z_scope.

(* byte order on keys *)
Definition below (a b : key) : Prop := bcompare a b = Lt.
Definition upto (a b : key) : Prop := a = b \/ below a b.
Definition prefix_of (p k : key) : Prop := exists x, k = p ++ x.

(* a region holds the keys of [start, end); an empty end means "no upper bound" *)
Definition before_end (k e : key) : Prop := e = [] \/ below k e.
Definition owns (r : region) (k : key) : Prop := upto (r_start r) k /\ before_end k (r_end r).

(* the regions rs, in this order, cut the keys from s to e into consecutive non-empty
   pieces: each begins where the one before ends *)
Fixpoint tile (s : key) (rs : list region) (e : key) : Prop :=
  match rs with
  | [] => False
  | r :: rs' =>
      r_start r = s /\ before_end s (r_end r) /\
      match rs' with
      | [] => r_end r = e
      | _ => r_end r <> [] /\ tile (r_end r) rs' e
      end
  end.
(* a complete set of regions: no gap, no overlap, every key in exactly one of them *)
Definition complete (rs : list region) : Prop := tile [] rs [] /\ NoDup (map r_id rs).

(* the table's two maps list exactly the regions rs *)
Definition lists (t : table) (rs : list region) : Prop :=
  t_keys t = map (fun r => (r_start r, r_id r)) rs /\
  Forall (fun r => t_infos t (r_id r) = Some r) rs.
Definition good (t : table) (rs : list region) : Prop := complete rs /\ lists t rs.
(* region_info_mapping knows no other region *)
Definition no_others (t : table) (rs : list region) : Prop :=
  forall i r, t_infos t i = Some r -> r_id r = i /\ In r rs.

(* the keys an index range asks for: column values above (or at) the left bound and below
   (or at) the right bound; a bound may give only the first columns, so "at the bound" means
   "begins with the bound" *)
Definition left_ok (g : range) (k : key) : Prop :=
  g_left g = [] \/
  (if g_lopen g then below (g_left g) k /\ ~ prefix_of (g_left g) k else upto (g_left g) k).
Definition right_ok (g : range) (k : key) : Prop :=
  g_right g = [] \/
  (if g_ropen g then below k (g_right g) else upto k (g_right g) \/ prefix_of (g_right g) k).
Definition wanted (is_eq : bool) (g : range) (k : key) : Prop :=
  if is_eq then prefix_of (g_left g) k else left_ok g k /\ right_ok g k.

(* ---- heartbeats ---- *)

(* a region that holds keys; regions emptied by a merge keep start = end and are skipped *)
Definition live (r : region) : Prop := r_start r = [] \/ r_start r <> r_end r.

(* the regions of a heartbeat: none deleted, each with a well-formed interval; one region
   is reported once; a region reported with the version the table has is the same region *)
Definition fits (t : table) (batch : list region) : Prop :=
  (forall r, In r batch -> r_deleted r = false /\ 0 <= r_ver r /\ (live r -> before_end (r_start r) (r_end r))) /\
  (forall r r', In r batch -> In r' batch -> r_id r = r_id r' -> r = r') /\
  (forall r o, In r batch -> t_infos t (r_id r) = Some o -> r_ver o = r_ver r -> o = r).

(* moreover the regions are part of one complete set, and a region that starts where a
   known region starts is known itself, and did not start to the left of that point *)
Definition of_one_state (t : table) (rs batch : list region) : Prop :=
  (forall r r', In r batch -> In r' batch -> live r -> live r' -> below (r_start r) (r_start r') ->
     r_end r <> [] /\ upto (r_end r) (r_start r')) /\
  (forall r o, In r batch -> live r -> In o rs -> r_start o = r_start r ->
     exists o', t_infos t (r_id r) = Some o' /\ upto (r_start r) (r_start o')).
