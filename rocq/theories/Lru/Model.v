(* Model of the LRU cache: include/common/lru_cache.h and lru_cache.hpp.
   Nodes live in a heap and are reached by address from the hash map and from the
   intrusive list, as in the code; touching a freed node is an error (None).  The mutex
   makes the operations atomic.  Keys and values are integers; the hash map is an
   association list with unordered_map's find / insert / erase semantics.  Hit counters
   are not modelled. *)
From Coq Require Export List ZArith Lia Bool.
Export ListNotations.
Local Open Scope Z_scope.

(* lru_cache.h:29-33 *)
Record node := mk_node { n_value : Z; n_key : Z }.
(* lru_cache.h:53-60: list of addresses from head to tail, map from key to address *)
Record cache := mk_cache { heap : nat -> option node; lst : list nat; mp : list (Z * nat); next : nat; thr : Z }.
Definition hset (h : nat -> option node) (a : nat) (o : option node) : nat -> option node := fun x => if Nat.eqb x a then o else h x.
Definition mfind (k : Z) (m : list (Z * nat)) : option nat := option_map snd (find (fun e => fst e =? k) m).
Definition merase (k : Z) (m : list (Z * nat)) : list (Z * nat) := filter (fun e => negb (fst e =? k)) m.
(* LinkNode::RemoveFromList; LinkedList::Append adds at the tail *)
Definition unlink (a : nat) (l : list nat) : list nat := filter (fun x => negb (Nat.eqb x a)) l.

(* lru_cache.hpp:23-26; a new cache is empty *)
Definition init (threshold : Z) : cache := mk_cache (fun _ => None) [] [] 0 threshold.
(* hpp:28-31 *)
Definition size (c : cache) : nat := length (mp c).
(* hpp:49-62; result: the value, or None for a miss *)
Definition cfind (c : cache) (k : Z) : option (cache * option Z) :=
  match mfind k (mp c) with
  | None => Some (c, None)
  | Some a => match heap c a with
              | None => None
              | Some n => Some (mk_cache (heap c) (unlink a (lst c) ++ [a]) (mp c) (next c) (thr c), Some (n_value n))
              end
  end.
(* hpp:74-79: the eviction loop *)
Fixpoint evict (fuel : nat) (h : nat -> option node) (l : list nat) (m : list (Z * nat)) (t : Z)
  : option ((nat -> option node) * list nat * list (Z * nat)) :=
  match fuel with
  | O => Some (h, l, m)
  | S fuel' =>
      match l with
      | [] => Some (h, l, m)
      | a :: l' =>
          if t <=? Z.of_nat (length m)
          then match h a with
               | None => None
               | Some n => evict fuel' (hset h a None) l' (merase (n_key n) m) t
               end
          else Some (h, l, m)
      end
  end.
(* hpp:64-84 *)
Definition cadd (c : cache) (k v : Z) : option cache :=
  let '(h1, l1, m1, a, nx) :=
    match mfind k (mp c) with
    | Some a => (heap c, unlink a (lst c), mp c, a, next c)
    | None => (hset (heap c) (next c) (Some (mk_node 0 0)), lst c, mp c ++ [(k, next c)], next c, S (next c))
    end in
  match evict (length l1) h1 l1 m1 (thr c) with
  | None => None
  | Some (h2, l2, m2) =>
      match h2 a with
      | None => None
      | Some _ => Some (mk_cache (hset h2 a (Some (mk_node v k))) (l2 ++ [a]) m2 nx (thr c))
      end
  end.
(* hpp:86-97 *)
Definition cdel (c : cache) (k : Z) : option cache :=
  match mfind k (mp c) with
  | None => Some c
  | Some a => match heap c a with
              | None => None
              | Some n => Some (mk_cache (hset (heap c) a None) (unlink a (lst c)) (merase (n_key n) (mp c)) (next c) (thr c))
              end
  end.
(* hpp:99-115 *)
Fixpoint free_all (h : nat -> option node) (l : list nat) (m : list (Z * nat)) : option ((nat -> option node) * list nat) :=
  match m with
  | [] => Some (h, l)
  | (_, a) :: m' => match h a with None => None | Some _ => free_all (hset h a None) (unlink a l) m' end
  end.
Definition cclear (c : cache) : option cache :=
  match free_all (heap c) (lst c) (mp c) with
  | None => None
  | Some (h, l) => Some (mk_cache h l [] (next c) (thr c))
  end.
(* hpp:40-47 *)
Definition ccheck (c : cache) (k : Z) : bool := match mfind k (mp c) with Some _ => true | None => false end.

Inductive op := Add (k v : Z) | Find (k : Z) | Del (k : Z) | Clear.
(* the new cache and, for Find, the answer *)
Definition step (c : cache) (o : op) : option (cache * option Z) :=
  match o with
  | Add k v => option_map (fun c' => (c', None)) (cadd c k v)
  | Find k => cfind c k
  | Del k => option_map (fun c' => (c', None)) (cdel c k)
  | Clear => option_map (fun c' => (c', None)) (cclear c)
  end.
(* the history is kept most recent first, each operation with its answer *)
Fixpoint run (c : cache) (h : list (op * option Z)) (os : list op) : option (cache * list (op * option Z)) :=
  match os with
  | [] => Some (c, h)
  | o :: os' => match step c o with None => None | Some (c', r) => run c' ((o, r) :: h) os' end
  end.
