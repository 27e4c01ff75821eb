(* C18: the LRU cache. *)
From Verif.Lru Require Import Model Spec Proofs.
Local Open Scope Z_scope.

(* A hit returns the value of the last add not deleted or cleared since. *)
Theorem C18_find_value : forall t os c h k c' v, run (init t) [] os = Some (c, h) ->
  step c (Find k) = Some (c', Some v) -> last_value h k = Some v.
Proof. exact find_value. Qed.
Print Assumptions C18_find_value.
(* A key is found again as long as fewer than `capacity` other keys were used since its
   last use: only the least recently used entries are evicted, and only when full. *)
Theorem C18_recent_kept : forall t os c h k v, run (init t) [] os = Some (c, h) -> last_value h k = Some v ->
  Z.of_nat (length (used_since h k)) < capacity t -> exists c', step c (Find k) = Some (c', Some v).
Proof. exact find_recent. Qed.
Print Assumptions C18_recent_kept.
Theorem C18_size_bound : forall t os c h, run (init t) [] os = Some (c, h) -> Z.of_nat (size c) <= capacity t.
Proof. exact size_bound. Qed.
Print Assumptions C18_size_bound.
(* Memory: no operation touches a freed node, and the live nodes are those in the map. *)
Theorem C18_no_bad_access : forall t os, exists r, run (init t) [] os = Some r.
Proof. exact run_total. Qed.
Print Assumptions C18_no_bad_access.
Theorem C18_no_leak : forall t os c h a, run (init t) [] os = Some (c, h) ->
  heap c a <> None <-> exists k, mfind k (mp c) = Some a.
Proof. exact no_leak. Qed.
Print Assumptions C18_no_leak.

Definition ops1 : list op := [Add 1 10; Add 2 20; Add 3 30; Find 1; Add 4 40; Find 2; Add 3 31; Del 4; Add 5 50].
Example C18_nonvacuous : exists c h, run (init 4) [] ops1 = Some (c, h) /\ size c = 3%nat /\
  last_value h 1 = Some 10 /\ used_since h 1 = [5; 3; 4] /\
  last_value h 3 = Some 31 /\ used_since h 3 = [5] /\ Z.of_nat (length (used_since h 3)) < capacity 4 /\
  last_value h 2 = Some 20 /\ option_map snd (step c (Find 2)) = Some None /\
  option_map snd (step c (Find 3)) = Some (Some 31).
Proof. eexists _, _. split; [vm_compute; reflexivity|]. vm_compute. repeat split. Qed.
(* The bound is tight: with `capacity` other keys used the entry is gone.  The cache keeps
   one entry less than its configured length (for thresholds above 2). *)
Theorem C18_capacity_tight : exists os c h, run (init 4) [] os = Some (c, h) /\ last_value h 1 = Some 10 /\
  Z.of_nat (length (used_since h 1)) = capacity 4 /\ capacity 4 = 3 /\ option_map snd (step c (Find 1)) = Some None.
Proof. exists [Add 1 10; Add 2 20; Add 3 30; Add 4 40]. eexists _, _. split; [vm_compute; reflexivity|]. vm_compute. repeat split. Qed.
Print Assumptions C18_capacity_tight.
