(* The three levels of a full-text index (include/reverse/reverse_index.hpp,
   include/reverse/reverse_common.hpp, src/store/region.cpp 5791-5828): single entries
   written by transactions (level 1), and per term a recent list (level 2) and a merged
   list (level 3).  A background thread moves entries to level 2 and lists to level 3.

   One region and one index: the key prefix region + index + level is left out of the
   keys, level 1 is ordered by the rest of the key, levels 2 and 3 by the term.  A node is
   its key and delete mark, as in Rev/Model.v.  Transactions of the merge thread either
   commit or fail; a write batch of a user's transaction appears at its commit. *)
From Coq Require Import ZArith List Bool.
From Verif Require Import Common.Bytes Common.KV Key.Model Rev.Model.
Import ListNotations.
Local Open Scope nat_scope.

Definition term := list Z.

(* _insert_one_reverse_node (reverse_index.hpp 644-681): term, NUL, primary key, NUL and
   the wall clock in microseconds *)
Definition raw (t : term) (pk : key) (time : Z) : key := t ++ 0%Z :: pk ++ 0%Z :: app_i64 false time.

(* get_term_from_reverse_key (reverse_common.h 278-281) returns a char pointer into the
   key: the text up to the first NUL *)
Fixpoint cstr (s : key) : key :=
  match s with
  | [] => []
  | b :: r => if (b =? 0)%Z then [] else b :: cstr r
  end.

(* ---- iterators over the levels ---- *)

(* the range test (reverse_common.hpp 161-162) *)
Definition outside (rg : key * key) (k : key) : bool :=
  (negb (match fst rg with [] => true | _ => false end) && bltb k (fst rg)) ||
  (negb (match snd rg with [] => true | _ => false end) && bleb (snd rg) k).

(* FirstLevelMSIterator (reverse_common.h 184-226): position of the rocksdb iterator
   (the entries from it on), _merge_term, _first, _key_range, _rocksdb != NULL, the keys
   deleted so far when _del is set, _node_dq, _need_next *)
Record first_it := FI {
  fi_rest : list (key * node); fi_term : term; fi_first : bool; fi_range : key * key;
  fi_handle : bool; fi_dels : list key; fi_dq : list node; fi_need : bool }.

(* the loop of internal_next (reverse_common.hpp 112-164) from the current position.
   _rocksdb->get_data_handle() (line 136) reads a member: with _rocksdb == NULL it is
   undefined.  Deleting with _del unset is left out: a reader drops the keys returned. *)
Fixpoint scan (t : term) (rg : key * key) (handle : bool) (rest : list (key * node)) (dels : list key) :
    option (option node * list (key * node) * list key) :=
  match rest with
  | [] => Some (None, [], dels)
  | (r, n) :: rest' =>
      if beqb (cstr r) t then
        if handle then
          if outside rg (nkey n) then scan t rg handle rest' (dels ++ [r])
          else Some (Some n, rest, dels ++ [r])
        else None
      else Some (None, rest, dels)
  end.

(* the loop of next (lines 62-90) *)
Fixpoint fill (rounds : nat) (i : first_it) : option first_it :=
  match rounds with
  | O => None
  | S r =>
      if fi_need i && (length (fi_dq i) <? 2) then
        let* (found, rest, dels) := scan (fi_term i) (fi_range i) (fi_handle i)
                                      (if fi_first i then fi_rest i else tl (fi_rest i)) (fi_dels i) in
        let next dq need := FI rest (fi_term i) false (fi_range i) (fi_handle i) dels dq need in
        match found with
        | None => Some (next (fi_dq i) false)
        | Some n =>
            match fi_dq i with
            | [] => fill r (next [n] true)
            | a :: q =>
                if beqb (nkey n) (nkey (last q a)) then fill r (next (removelast (fi_dq i) ++ [n]) true)
                else Some (next (fi_dq i ++ [n]) true)
            end
        end
      else Some i
  end.

(* next (lines 61-110): the node given to the caller, None at the end.  Leaving the loop
   with fewer than two nodes and _need_next set cannot happen *)
Definition first_next (i : first_it) : option (first_it * option node) :=
  let* i := fill (length (fi_rest i) + 2) i in
  let pop n q := Some (FI (fi_rest i) (fi_term i) (fi_first i) (fi_range i) (fi_handle i) (fi_dels i) q (fi_need i), Some n) in
  match fi_dq i with
  | n :: b :: q => pop n (b :: q)
  | q => if fi_need i then None else match q with n :: q => pop n q | [] => Some (i, None) end
  end.

(* SecondLevelMSIterator (reverse_common.h 235-260) *)
Record second_it := SI { si_list : list node; si_index : nat; si_first : bool; si_range : key * key }.

(* the skipping of equal keys (reverse_common.hpp 196-202) *)
Fixpoint skip_same (rounds : nat) (l : list node) (k : key) (i : nat) : nat :=
  match rounds with
  | O => i
  | S r => match nth_error l (S i) with
           | Some n => if beqb k (nkey n) then skip_same r l k (S i) else i
           | None => i
           end
  end.

(* next (lines 184-219) *)
Fixpoint second_find (rounds : nat) (i : second_it) : option (second_it * option node) :=
  match rounds with
  | O => None
  | S r =>
      let ix := if si_first i then si_index i else S (si_index i) in
      match nth_error (si_list i) ix with
      | None => Some (SI (si_list i) ix false (si_range i), None)
      | Some n =>
          let ix2 := skip_same (length (si_list i)) (si_list i) (nkey n) ix in
          let i2 := SI (si_list i) ix2 false (si_range i) in
          if negb (match fst (si_range i) with [] => true | _ => false end) && bltb (nkey n) (fst (si_range i))
          then second_find r i2
          else if negb (match snd (si_range i) with [] => true | _ => false end) && bleb (snd (si_range i)) (nkey n)
          then Some (i2, None)
          else let* m := nth_error (si_list i) ix2 in Some (i2, Some m)
      end
  end.
Definition second_next (i : second_it) : option (second_it * option node) := second_find (S (length (si_list i))) i.

Inductive level_it := It1 (i : first_it) | It2 (i : second_it).
Definition it_next (i : level_it) : option (level_it * option node) :=
  match i with
  | It1 i => let* (i', n) := first_next i in Some (It1 i', n)
  | It2 i => let* (i', n) := second_next i in Some (It2 i', n)
  end.
Definition it_size (i : level_it) : nat :=
  match i with It1 i => length (fi_rest i) | It2 i => length (si_list i) end.

(* the loop of level_merge (lines 256-316): [na] and [nb] are the current nodes *)
Fixpoint merge_loop (rounds : nat) (is_del : bool) (a b : level_it) (na nb : option node) (res : list node) :
    option (list node * level_it * level_it) :=
  match rounds with
  | O => None
  | S r =>
      let add n := if is_del && ndel n then res else res ++ [n] in
      match na, nb with
      | Some x, Some y =>
          match bcompare (nkey x) (nkey y) with
          | Lt => let* (a', n) := it_next a in merge_loop r is_del a' b n nb (add x)
          | Gt => let* (b', n) := it_next b in merge_loop r is_del a b' na n (add y)
          | Eq => let* (a', n) := it_next a in let* (b', m) := it_next b in merge_loop r is_del a' b' n m (add x)
          end
      | Some x, None => let* (a', n) := it_next a in merge_loop r is_del a' b n nb (add x)
      | None, Some y => let* (b', n) := it_next b in merge_loop r is_del a b' na n (add y)
      | None, None => Some (res, a, b)
      end
  end.

(* level_merge (lines 238-319): the merged list and the iterators at the end *)
Definition level_merge (a b : level_it) (is_del : bool) : option (list node * level_it * level_it) :=
  let* (a', na) := it_next a in
  let* (b', nb) := it_next b in
  merge_loop (it_size a + it_size b + 1) is_del a' b' na nb [].

(* ---- the index ---- *)

(* level 1 to 3 on disk *)
Record levels := Levels { lv1 : kv node; lv2 : kv (list node); lv3 : kv (list node) }.

(* a pass of reverse_merge_func: the entries ahead of its iterator, and the term whose new
   level-2 list waits to be moved to level 3 *)
Record pass := Pass { p_rest : list (key * node); p_moves : option (term * list node) }.

(* ReverseIndex (reverse_index.h 385-435): _key_range, _cache, _cache_keys; the running
   pass, and the lists readers have fetched from level 3 and are about to cache *)
Record index_mem := Mem {
  m_range : key * key; m_cache : kv (list node); m_stale : list term;
  m_pass : option pass; m_fetched : list (term * list node) }.

Record config := Config { second_length : nat; cached_length : nat; over_cache : bool }.

(* the region's range is that of RegionInfo; it is kept on disk *)
Record index := Index { i_lv : levels; i_range : key * key; i_mem : index_mem }.

(* a ReverseIndex just created: constructor, reverse_index.h 186-214 *)
Definition mem0 : index_mem := Mem ([], []) [] [] None [].

(* one entry written by insert_reverse or delete_reverse *)
Record wr := Wr { w_term : term; w_pk : key; w_del : bool; w_time : Z }.

Inductive event :=
| Write (ws : list wr)             (* a transaction commits its entries *)
| Range (r : key * key)            (* the region's range changes: split or merge of regions *)
| Start                            (* reverse_merge_func takes over the range *)
| Remove2 (t : term) | Remove3 (t : term)  (* one round of _reverse_remove_range_for_third_level *)
| Begin                            (* the pass creates its iterator *)
| To2 (t : term)                   (* the first transaction of _reverse_merge_to_second_level *)
| To3 (t : term)                   (* its second transaction *)
| End                              (* the iterator is at the end: the cache is cleaned *)
| Fail                             (* the pass gives up with an error *)
| Stop                             (* the store restarts *)
| Fetch (t : term)                 (* a reader reads level 3 of a term from disk *)
| Keep (t : term) (l : list node)  (* and puts the list it has read into the cache *)
| Evict (t : term).                (* the cache drops its oldest list *)

Definition set_lv (s : index) (l : levels) : index := Index l (i_range s) (i_mem s).
Definition set_pass (m : index_mem) (p : option pass) : index_mem :=
  Mem (m_range m) (m_cache m) (m_stale m) p (m_fetched m).
Definition set_cache (m : index_mem) (c : kv (list node)) : index_mem :=
  Mem (m_range m) c (m_stale m) (m_pass m) (m_fetched m).

(* the list of a term at a level; absent is empty: _get_level_reverse_list
   (reverse_index.hpp 557-621) without the cache *)
Definition list_at (t : term) (lv : kv (list node)) : list node :=
  match kget t lv with Some l => l | None => [] end.

(* the bound of the iterators: prefix and eight bytes 0xFF (lines 40-43, 310-313) *)
Definition bound : key := repeat 255%Z 8.

Definition write1 (lv : levels) (w : wr) : levels :=
  Levels (kput (raw (w_term w) (w_pk w) (w_time w)) (Node (w_pk w) (w_del w)) (lv1 lv)) (lv2 lv) (lv3 lv).

(* one round of _reverse_remove_range_for_third_level (lines 333-417): the new content of
   the level, or None for an error.  The list is merged with an empty one. *)
Definition remove_range (rg : key * key) (t : term) (lv : kv (list node)) : option (kv (list node)) :=
  match kget t lv with
  | None => Some lv
  | Some l =>
      if negb (bltb t bound) then Some lv else
      if match l with
         | [] => false
         | a :: r => bleb (fst rg) (nkey a) &&
                     (match snd rg with [] => true | _ => bltb (nkey (last r a)) (snd rg) end)
         end
      then Some lv else
      let* (res, _, _) := level_merge (It2 (SI [] 0 true rg)) (It2 (SI l 0 true rg)) false in
      if (0 <? length l) && (length res =? length l) then Some lv else
      Some (match res with [] => kdel t lv | _ => kput t res lv end)
  end.

Definition del_all (ks : list key) (lv : kv node) : kv node := fold_left (fun s k => kdel k s) ks lv.

(* the first part of _reverse_merge_to_second_level (lines 428-491) for the term the
   iterator stands on *)
Definition to2 (c : config) (rg : key * key) (rest : list (key * node)) (lv : levels) :
    option (levels * pass) :=
  match rest with
  | [] => None
  | (r, _) :: _ =>
      let t := cstr r in
      let* (res, a, _) := level_merge (It1 (FI rest t true rg true [] [] true)) (It2 (SI (list_at t (lv2 lv)) 0 true rg)) false in
      match a with
      | It1 i =>
          Some (Levels (del_all (fi_dels i) (lv1 lv)) (kput t res (lv2 lv)) (lv3 lv),
                Pass (fi_rest i) (if second_length c <=? length res then Some (t, res) else None))
      | It2 _ => None
      end
  end.

(* the second part (lines 492-550) *)
Definition to3 (rg : key * key) (t : term) (l : list node) (lv : levels) : option levels :=
  let* (res, _, _) := level_merge (It2 (SI l 0 true rg)) (It2 (SI (list_at t (lv3 lv)) 0 true rg)) true in
  Some (Levels (lv1 lv) (kdel t (lv2 lv)) (match res with [] => kdel t (lv3 lv) | _ => kput t res (lv3 lv) end)).

Definition node_dec (a b : node) : {a = b} + {a <> b}.
Proof. decide equality; [apply bool_dec|apply (list_eq_dec Z.eq_dec)]. Defined.

(* An event that the state does not allow gives None.  reverse_merge_func is lines 16-92;
   all passes over an index run in one thread. *)
Definition next (c : config) (s : index) (e : event) : option index :=
  let m := i_mem s in
  let lv := i_lv s in
  match e with
  | Write ws => Some (set_lv s (fold_left write1 ws lv))
  | Range r => Some (Index lv r m)
  | Start =>
      match m_pass m with
      | Some _ => None
      | None => Some (Index lv (i_range s) (Mem (i_range s) (m_cache m) (m_stale m) None (m_fetched m)))
      end
  | Remove2 t =>
      match m_pass m with
      | Some _ => None
      | None => let* l := remove_range (m_range m) t (lv2 lv) in Some (set_lv s (Levels (lv1 lv) l (lv3 lv)))
      end
  | Remove3 t =>
      match m_pass m with
      | Some _ => None
      | None => let* l := remove_range (m_range m) t (lv3 lv) in Some (set_lv s (Levels (lv1 lv) (lv2 lv) l))
      end
  | Begin =>
      match m_pass m with
      | Some _ => None
      | None => Some (Index lv (i_range s)
                  (Mem (m_range m) (m_cache m) [] (Some (Pass (kfilter (fun k => bltb k bound) (lv1 lv)) None)) (m_fetched m)))
      end
  | To2 t =>
      match m_pass m with
      | Some (Pass ((r, n) :: rest) None) =>
          if beqb (cstr r) t then
            let* (lv', p) := to2 c (m_range m) ((r, n) :: rest) lv in
            Some (Index lv' (i_range s) (set_pass m (Some p)))
          else None
      | _ => None
      end
  | To3 t =>
      match m_pass m with
      | Some (Pass rest (Some (t', l))) =>
          if beqb t' t then
            let* lv' := to3 (m_range m) t l lv in
            Some (Index lv' (i_range s)
              (Mem (m_range m) (m_cache m) (if over_cache c then m_stale m ++ [t] else m_stale m)
                   (Some (Pass rest None)) (m_fetched m)))
          else None
      | _ => None
      end
  | End =>
      match m_pass m with
      | Some (Pass [] None) =>
          Some (Index lv (i_range s)
            (Mem (m_range m) (if over_cache c then fold_left (fun q t => kdel t q) (m_stale m) (m_cache m) else m_cache m)
                 (m_stale m) None (m_fetched m)))
      | _ => None
      end
  | Fail => Some (Index lv (i_range s) (set_pass m None))
  | Stop => Some (Index lv (i_range s) mem0)
  | Fetch t =>
      match kget t (m_cache m), kget t (lv3 lv) with
      | None, Some l =>
          if over_cache c && (cached_length c <=? length l)
          then Some (Index lv (i_range s) (Mem (m_range m) (m_cache m) (m_stale m) (m_pass m) (m_fetched m ++ [(t, l)])))
          else Some s
      | _, _ => Some s
      end
  | Keep t l =>
      if existsb (fun p => beqb (fst p) t && (if list_eq_dec node_dec (snd p) l then true else false)) (m_fetched m)
      then Some (Index lv (i_range s) (set_cache m (kput t l (m_cache m)))) else None
  | Evict t => Some (Index lv (i_range s) (set_cache m (kdel t (m_cache m))))
  end.

Fixpoint history (c : config) (s : index) (es : list event) : option index :=
  match es with
  | [] => Some s
  | e :: r => let* s' := next c s e in history c s' r
  end.

(* ---- reading a term: get_reverse_list_two (lines 181-258) ---- *)

(* is_fast: level 2 only; otherwise level 1 over level 2.  [handle] is whether the
   iterator over level 1 is given the store; the code does not (lines 222-226). *)
Definition recent_fast (s : index) (t : term) : list node := list_at t (lv2 (i_lv s)).
Definition recent_full (handle : bool) (s : index) (t : term) : option (list node) :=
  let rg := m_range (i_mem s) in
  let* (res, _, _) := level_merge (It1 (FI (kseek t (lv1 (i_lv s))) t true rg handle [] [] true))
                                  (It2 (SI (list_at t (lv2 (i_lv s))) 0 true rg)) false in
  Some res.

(* level 3, from the cache if it is there (lines 577-589) *)
Definition merged (c : config) (s : index) (t : term) : list node :=
  match (if over_cache c then kget t (m_cache (i_mem s)) else None) with
  | Some l => l
  | None => list_at t (lv3 (i_lv s))
  end.

(* ---- a query over terms ---- *)
Inductive formula :=
| Has (t : term)
| AllOf (fs : list formula)
| AnyOf (fs : list formula).

(* the tree of executors over the lists a reader of each term is given: search,
   reverse_index.hpp 162-180, and get_reverse_list_two for every term; how the tree is
   built and read is Model.v *)
Fixpoint query_of (new old : term -> list node) (f : formula) : query :=
  match f with
  | Has t => QTerm (new t) (old t)
  | AllOf fs => QAnd (map (query_of new old) fs)
  | AnyOf fs => QOr (map (query_of new old) fs)
  end.

(* the documents read with at most [rounds] calls, from the lists given *)
Definition ask (rg : key * key) (new old : term -> list node) (f : formula) (rounds : nat) : option (list key) :=
  let* e := build (fst rg) (snd rg) (query_of new old f) in read_all rounds e.

(* a search with default flags: level 2 and level 3 *)
Definition search (c : config) (s : index) (f : formula) (rounds : nat) : option (list key) :=
  ask (m_range (i_mem s)) (recent_fast s) (merged c s) f rounds.
