(** Model of the HyperLogLog sketches of BaikalDB.

    Source: src/common/hll_common.cpp, include/common/hll_common.h and the SQL
    functions over them (src/expr/internal_functions.cpp:2293-2349,
    src/expr/agg_fn_call.cpp:420-436, 585-603, 745-757, 843-850, 961-971,
    src/exec/insert_manager_node.cpp:203-208).

    A string is the record [hll] of Spec.v; its magic "HYLL" and the three unused
    bytes are left out, so a string that is too short or has another magic is not
    represented.  Reading or writing past the terminating NUL of a string is
    undefined behaviour and is the outcome [None]; so is writing a byte other than
    zero over the NUL. *)
From Coq Require Import NArith ZArith List Bool Lia.
From Verif.Hll Require Import Spec.
Import ListNotations.
Open Scope N_scope.

Notation "x <- e ;; f" := (match e with Some x => f | None => None end)
  (at level 60, e at level 59, right associativity).

Definition len (l : list N) : N := N.of_nat (length l).

(** [data()[i]]; the byte after the last one is the NUL of std::string. *)
Definition rd (l : list N) (i : N) : option N :=
  if i <=? len l then Some (nth (N.to_nat i) l 0) else None.

Fixpoint upd (l : list N) (n : nat) (v : N) : list N :=
  match l, n with
  | [], _ => []
  | _ :: t, O => v :: t
  | b :: t, S k => b :: upd t k v
  end.

(** [data()[i] = v]. *)
Definition wr (l : list N) (i v : N) : option (list N) :=
  if i <? len l then Some (upd l (N.to_nat i) v)
  else if (i =? len l) && (v =? 0) then Some l else None.

(** include/common/hll_common.h:197-198, HLL_INVALIDATE_CACHE and HLL_VALID_CACHE:
    the top bit of the eighth byte of the cached estimate. *)
Definition invalidate (h : hll) : hll :=
  {| enc := enc h; card := N.lor (card h) (N.shiftl 1 63); body := body h |}.
Definition valid_cache (h : hll) : bool := negb (N.testbit (card h) 63).

(** hll_common.h:200-212. *)
Definition HLL_P : N := 14.
Definition HLL_Q : N := 50.
Definition REGS : N := 16384.
Definition DENSE_BYTES : N := 12288.
Definition HDR_SIZE : N := 16.
Definition REGISTER_MAX : N := 63.
Definition sparse_max_bytes : N := 3000.

Definition with_body (h : hll) (b : list N) : hll :=
  {| enc := enc h; card := card h; body := b |}.

(** hll_common.cpp:41-56, hll_pat_len: the loop over [bit].  The bit put at
    HLL_Q bounds the number of turns. *)
Fixpoint pat_loop (turns : nat) (hash bit count : N) : N :=
  match turns with
  | O => count
  | S k => if N.land hash bit =? 0 then pat_loop k hash (N.shiftl bit 1) (count + 1)
           else count
  end.

Definition hll_pat_len (hash : N) : N * N :=
  let index := N.land hash (REGS - 1) in
  let hash := N.shiftr hash HLL_P in
  let hash := N.lor hash (N.shiftl 1 HLL_Q) in
  (index, pat_loop 51 hash 1 1).

(** hll_common.cpp:58-82, is_hll_object without the checks of the length of the
    header and of the magic. *)
Definition is_hll_object (h : hll) : bool :=
  if (1 <? enc h) && negb (enc h =? RAW) then false
  else if (enc h =? DENSE) && negb (len (body h) =? DENSE_BYTES) then false
  else true.

(** hll_common.h:218-226, HLL_DENSE_GET_REGISTER. *)
Definition dense_get (l : list N) (i : N) : option N :=
  let byte := i * 6 / 8 in
  let fb := N.land (i * 6) 7 in
  let fb8 := 8 - fb in
  b0 <- rd l byte ;;
  b1 <- rd l (byte + 1) ;;
  Some (N.land (N.lor (N.shiftr b0 fb) (N.shiftl b1 fb8)) REGISTER_MAX).

(** hll_common.h:230-240, HLL_DENSE_SET_REGISTER; the stores truncate to a byte. *)
Definition dense_put (l : list N) (i v : N) : option (list N) :=
  let byte := i * 6 / 8 in
  let fb := N.land (i * 6) 7 in
  let fb8 := 8 - fb in
  a <- rd l byte ;;
  l <- wr l byte (N.ldiff a (N.shiftl REGISTER_MAX fb)) ;;
  a <- rd l byte ;;
  l <- wr l byte (N.land (N.lor a (N.shiftl v fb)) 255) ;;
  a <- rd l (byte + 1) ;;
  l <- wr l (byte + 1) (N.ldiff a (N.shiftr REGISTER_MAX fb8)) ;;
  a <- rd l (byte + 1) ;;
  wr l (byte + 1) (N.land (N.lor a (N.shiftr v fb8)) 255).

(** hll_common.cpp:84-94, hll_dense_set. *)
Definition dense_set (l : list N) (i count : N) : option (Z * list N) :=
  old <- dense_get l i ;;
  if old <? count then l' <- dense_put l i count ;; Some (1%Z, l')
  else Some (0%Z, l).

(** [if (val > max[i]) max[i] = val], hll_common.cpp:645-647, 713-715 and others. *)
Definition raw_max (l : list N) (i v : N) : option (list N) :=
  old <- rd l i ;;
  if old <? v then wr l i v else Some l.

(** hll_common.h:246-266, the macros of the sparse encoding. *)
Definition is_zero (b : N) : bool := N.land b 0xc0 =? 0.
Definition is_xzero (b : N) : bool := N.land b 0xc0 =? 0x40.
Definition is_val (b : N) : bool := negb (N.land b 0x80 =? 0).
Definition zero_len (b : N) : N := N.land b 0x3f + 1.
Definition xzero_len (b c : N) : N := N.lor (N.shiftl (N.land b 0x3f) 8) c + 1.
Definition val_value (b : N) : N := N.land (N.shiftr b 2) 0x1f + 1.
Definition val_len (b : N) : N := N.land b 0x3 + 1.
Definition VAL_MAX_VALUE : N := 32.
Definition VAL_MAX_LEN : N := 4.
Definition ZERO_MAX_LEN : N := 64.
Definition XZERO_MAX_LEN : N := 16384.
Definition val_set (v n : N) : N := N.lor (N.lor (N.shiftl (v - 1) 2) (n - 1)) 0x80.
Definition zero_set (n : N) : list N := [n - 1].
Definition xzero_set (n : N) : list N :=
  [N.lor (N.shiftr (n - 1) 8) 0x40; N.land (n - 1) 0xff].

(** hll_common.cpp:168-198, hll_sparse_set_update: joins neighbouring runs of equal
    numbers, in at most five steps from the place given; [l] is the string from
    that place on. *)
Fixpoint set_update (scanlen : nat) (l : list N) : list N :=
  match scanlen, l with
  | O, _ => l
  | _, [] => l
  | S k, b :: t =>
      if is_xzero b then
        match t with [] => [b] | c :: t' => b :: c :: set_update k t' end
      else if is_zero b then b :: set_update k t
      else
        match t with
        | c :: t' =>
            if is_val c then
              if val_value b =? val_value c then
                let n := val_len b + val_len c in
                if n <=? VAL_MAX_LEN then set_update k (val_set (val_value b) n :: t')
                else b :: set_update k t
              else b :: set_update k t
            else b :: set_update k t
        | [] => b :: set_update k t
        end
  end.

(** hll_common.cpp:212-226: the search for the run that holds [index].  [front] and
    [prev] are the bytes passed, the last run passed apart; the result has the
    string from the run found on and the first index of the run. *)
Fixpoint scan (index first : N) (front prev l : list N)
  : option (list N * list N * N * N * list N) :=
  match l with
  | [] => None
  | b :: t =>
      if is_zero b then
        let span := zero_len b in
        if index + 1 <=? first + span then Some (front, prev, first, span, l)
        else scan index (first + span) (front ++ prev) [b] t
      else if is_val b then
        let span := val_len b in
        if index + 1 <=? first + span then Some (front, prev, first, span, l)
        else scan index (first + span) (front ++ prev) [b] t
      else
        match t with
        | [] =>
            let span := xzero_len b 0 in
            if index + 1 <=? first + span then Some (front, prev, first, span, l) else None
        | c :: t' =>
            let span := xzero_len b c in
            if index + 1 <=? first + span then Some (front, prev, first, span, l)
            else scan index (first + span) (front ++ prev) [b; c] t'
        end
  end.

(** [for (int j = 0; j < HLL_REGISTERS; j++)]. *)
Fixpoint loop {A} (turns : nat) (j : N) (f : A -> N -> option A) (a : A) : option A :=
  match turns with
  | O => Some a
  | S k => a' <- f a j ;; loop k (j + 1) f a'
  end.

Definition all_regs {A} (f : A -> N -> option A) (a : A) : option A :=
  loop (N.to_nat REGS) 0 f a.

(** The walks over the runs of a sparse string, hll_common.cpp:354-380, 659-692 and
    723-753; they differ in what they do with a number.  The index is an int and is
    not wrapped. *)
Fixpoint run {A} (set : A -> N -> N -> option A) (n : nat) (i v : N) (a : A) : option A :=
  match n with
  | O => Some a
  | S k => a' <- set a i v ;; run set k (i + 1) v a'
  end.

Fixpoint walk {A} (set : A -> N -> N -> option A) (l : list N) (i : N) (a : A)
  : option (A * N) :=
  match l with
  | [] => Some (a, i)
  | b :: t =>
      if is_zero b then walk set t (i + zero_len b) a
      else if is_xzero b then
        match t with
        | [] => Some (a, i + xzero_len b 0)
        | c :: t' => walk set t' (i + xzero_len b c) a
        end
      else if REGS <? val_len b + i then Some (a, i)
      else a' <- run set (N.to_nat (val_len b)) i (val_value b) a ;;
           walk set t (i + val_len b) a'
  end.

Definition dense_max (l : list N) (i v : N) : option (list N) :=
  r <- dense_set l i v ;; Some (snd r).

(** hll_common.cpp:321-384, hll_sparse_to_dense. *)
Definition sparse_to_dense (h : hll) : option (Z * hll) :=
  if enc h =? DENSE then Some (0%Z, h)
  else
    let zeros := repeat 0 (N.to_nat DENSE_BYTES) in
    let out b := Some (0%Z, {| enc := DENSE; card := card h; body := b |}) in
    if enc h =? RAW then
      b <- all_regs (fun b j =>
             v <- rd (body h) j ;; if v =? 0 then Some b else dense_max b j v) zeros ;;
      out b
    else
      r <- walk dense_put (body h) 0 zeros ;;
      if snd r =? REGS then out (fst r) else Some ((-1)%Z, h).

(** hll_common.cpp:154-166, hll_sparse_set_promote. *)
Definition set_promote (h : hll) (index count : N) : option (Z * hll) :=
  r <- sparse_to_dense h ;;
  if (fst r <? 0)%Z then Some ((-1)%Z, snd r)
  else
    d <- dense_set (body (snd r)) index count ;;
    let h' := with_body (snd r) (snd d) in
    if negb (fst d =? 1)%Z then Some ((-1)%Z, h')
    else Some (fst d, invalidate h').

(** hll_common.cpp:263-301: the runs that replace the one found. *)
Definition zeros_run (n : N) : list N :=
  if ZERO_MAX_LEN <? n then xzero_set n else zero_set n.

Definition split_zero (first last index count : N) : list N :=
  (if index =? first then [] else zeros_run (index - first))
  ++ [val_set count 1]
  ++ (if index =? last then [] else zeros_run (last - index)).

Definition split_val (first last index count cur : N) : list N :=
  (if index =? first then [] else [val_set cur (index - first)])
  ++ [val_set count 1]
  ++ (if index =? last then [] else [val_set cur (last - index)]).

(** hll_common.cpp:200-319, hll_sparse_set. *)
Definition sparse_set (h : hll) (index count : N) : option (Z * hll) :=
  if VAL_MAX_VALUE <? count then set_promote h index count
  else
    match scan index 0 [] [] (body h) with
    | None => Some ((-1)%Z, h)
    | Some (front, prev, first, span, l) =>
        match l with
        | [] => Some ((-1)%Z, h)
        | b :: t =>
            let last := first + span - 1 in
            let done l' :=
              Some (1%Z, invalidate (with_body h (front ++ set_update 5 (prev ++ l')))) in
            let replace oldlen seq :=
              if (N.of_nat oldlen <? len seq) &&
                 (sparse_max_bytes <? HDR_SIZE + len (body h) + (len seq - N.of_nat oldlen))
              then set_promote h index count
              else done (seq ++ skipn oldlen l) in
            if is_zero b then
              if zero_len b =? 1 then done (val_set count 1 :: t)
              else replace 1%nat (split_zero first last index count)
            else if is_xzero b then replace 2%nat (split_zero first last index count)
            else if count <=? val_value b then Some (0%Z, h)
            else if val_len b =? 1 then done (val_set count 1 :: t)
            else replace 1%nat (split_val first last index count (val_value b))
        end
    end.

(** hll_common.cpp:807-826, hll_sparse_init: one run of 16384 zeroes. *)
Definition sparse_init : hll :=
  {| enc := SPARSE; card := 0; body := xzero_set XZERO_MAX_LEN |}.

(** hll_common.cpp:834-842, hll_row_init. *)
Definition row_init : hll :=
  {| enc := RAW; card := 0; body := repeat 0 (N.to_nat REGS) |}.

(** hll_common.cpp:401-411 and 784-799: the switch on the encoding of the sketch
    written to.  In hll_merge nothing is done for HLL_RAW. *)
Definition set_switch (h : hll) (j v : N) : option hll :=
  if enc h =? DENSE then d <- dense_set (body h) j v ;; Some (with_body h (snd d))
  else if enc h =? SPARSE then r <- sparse_set h j v ;; Some (snd r)
  else Some h.

(** hll_common.cpp:386-414, hll_raw_to_sparse. *)
Definition raw_to_sparse (h : hll) : option hll :=
  if negb (enc h =? RAW) then Some h
  else all_regs (fun s j =>
         v <- rd (body h) j ;; if v =? 0 then Some s else set_switch s j v) sparse_init.

(** hll_common.cpp:422-431, hll_row_add. *)
Definition row_add (h : hll) (index count : N) : option (Z * hll) :=
  old <- rd (body h) index ;;
  if old <? count then
    l <- wr (body h) index count ;; Some (0%Z, invalidate (with_body h l))
  else Some (0%Z, h).

(** hll_common.cpp:433-456, hll_add. *)
Definition hll_add (h : hll) (hash : N) : option (Z * hll) :=
  if is_hll_object h then
    let '(index, count) := hll_pat_len hash in
    if enc h =? DENSE then
      d <- dense_set (body h) index count ;;
      let h' := with_body h (snd d) in
      Some (fst d, if (fst d =? 1)%Z then invalidate h' else h')
    else if enc h =? SPARSE then sparse_set h index count
    else if enc h =? RAW then row_add h index count
    else Some ((-1)%Z, h)
  else Some ((-1)%Z, h).

(** hll_common.cpp:630-703, hll_merge_agg. *)
Definition hll_merge_agg (h1 h2 : hll) : option (Z * hll) :=
  if negb (is_hll_object h1) || negb (is_hll_object h2) then Some ((-1)%Z, h1)
  else
    r <- (if enc h1 =? RAW then Some (0%Z, h1) else sparse_to_dense h1) ;;
    if (fst r <? 0)%Z then Some ((-1)%Z, snd r)
    else
      let h1 := snd r in
      let put l i v := if negb (enc h1 =? RAW) then dense_max l i v else raw_max l i v in
      if enc h2 =? DENSE then
        l <- all_regs (fun l i => v <- dense_get (body h2) i ;; put l i v) (body h1) ;;
        Some (0%Z, invalidate (with_body h1 l))
      else if enc h2 =? RAW then
        l <- all_regs (fun l i => v <- rd (body h2) i ;; raw_max l i v) (body h1) ;;
        Some (0%Z, invalidate (with_body h1 l))
      else
        w <- walk put (body h2) 0 (body h1) ;;
        let h1' := with_body h1 (fst w) in
        if snd w =? REGS then Some (0%Z, invalidate h1') else Some ((-1)%Z, h1').

(** hll_common.cpp:705-758, hll_merge into an array of bytes. *)
Definition merge_max (max : list N) (h : hll) : option (Z * list N) :=
  if enc h =? DENSE then
    l <- all_regs (fun l i => v <- dense_get (body h) i ;; raw_max l i v) max ;; Some (0%Z, l)
  else if enc h =? RAW then
    l <- all_regs (fun l i => v <- rd (body h) i ;; raw_max l i v) max ;; Some (0%Z, l)
  else
    w <- walk raw_max (body h) 0 max ;;
    Some (if snd w =? REGS then 0%Z else (-1)%Z, fst w).

(** hll_common.cpp:760-805, hll_merge. *)
Definition hll_merge (h1 h2 : hll) : option (Z * hll) :=
  if negb (is_hll_object h1) || negb (is_hll_object h2) then Some ((-1)%Z, h1)
  else
    let use_dense := (enc h1 =? DENSE) || (enc h2 =? DENSE) in
    m1 <- merge_max (repeat 0 (N.to_nat REGS)) h1 ;;
    if (fst m1 <? 0)%Z then Some ((-1)%Z, h1)
    else
      m2 <- merge_max (snd m1) h2 ;;
      if (fst m2 <? 0)%Z then Some ((-1)%Z, h1)
      else
        r <- (if use_dense then sparse_to_dense h1 else Some (0%Z, h1)) ;;
        if (fst r <? 0)%Z then Some ((-1)%Z, snd r)
        else
          h <- all_regs (fun s j =>
                 v <- rd (snd m2) j ;; if v =? 0 then Some s else set_switch s j v) (snd r) ;;
          Some (0%Z, invalidate h).

(** hll_common.cpp:102-152, hll_dense_reghisto: sixteen numbers of twelve bytes a turn. *)
Definition sixteen (r : list N) : list N :=
  let b i := nth i r 0 in
  let m x := N.land x 63 in
  let two x p y q := N.land (N.lor (N.shiftr (b x) p) (N.shiftl (b y) q)) 63 in
  [ m (b 0%nat); two 0%nat 6 1%nat 2; two 1%nat 4 2%nat 4; m (N.shiftr (b 2%nat) 2);
    m (b 3%nat); two 3%nat 6 4%nat 2; two 4%nat 4 5%nat 4; m (N.shiftr (b 5%nat) 2);
    m (b 6%nat); two 6%nat 6 7%nat 2; two 7%nat 4 8%nat 4; m (N.shiftr (b 8%nat) 2);
    m (b 9%nat); two 9%nat 6 10%nat 2; two 10%nat 4 11%nat 4; m (N.shiftr (b 11%nat) 2) ].

(** [reghisto[v] += n]; an index over 63 would be outside the array. *)
Definition bump (n v : N) (hist : option (list N)) : option (list N) :=
  hist <- hist ;;
  if v <? 64 then Some (upd hist (N.to_nat v) (nth (N.to_nat v) hist 0 + n)) else None.

Fixpoint dense_histo (turns : nat) (r : list N) (hist : option (list N)) : option (list N) :=
  match turns with
  | O => hist
  | S k => dense_histo k (skipn 12 r) (fold_left (fun a v => bump 1 v a) (sixteen r) hist)
  end.

(** hll_common.cpp:475-501, hll_sparse_reghisto without the flag for a bad length. *)
Fixpoint sparse_histo (l : list N) (hist : option (list N)) : option (list N) :=
  match l with
  | [] => hist
  | b :: t =>
      if is_zero b then sparse_histo t (bump (zero_len b) 0 hist)
      else if is_xzero b then
        match t with
        | [] => bump (xzero_len b 0) 0 hist
        | c :: t' => sparse_histo t' (bump (xzero_len b c) 0 hist)
        end
      else sparse_histo t (bump (val_len b) (val_value b) hist)
  end.

(** hll_common.cpp:503-521, hll_row_reghisto: eight bytes a turn. *)
Fixpoint row_histo (turns : nat) (r : list N) (hist : option (list N)) : option (list N) :=
  match turns with
  | O => hist
  | S k =>
      let word := firstn 8 r in
      row_histo k (skipn 8 r)
        (if forallb (fun b => b =? 0) word then bump 8 0 hist
         else fold_left (fun a v => bump 1 v a) word hist)
  end.

Definition reghisto (h : hll) : option (list N) :=
  let zero := Some (repeat 0 64) in
  if enc h =? DENSE then dense_histo (N.to_nat 1024) (body h) zero
  else if enc h =? SPARSE then sparse_histo (body h) zero
  else row_histo (N.to_nat 2048) (body h) zero.

(** hll_common.cpp:551-600 and 602-614, hll_estimate.  [est] is the computation with
    doubles from the histogram to the estimate, hll_common.cpp:523-549 and 580-588. *)
Definition hll_estimate (est : list N -> N) (h : hll) : option (N * hll) :=
  if is_hll_object h then
    if valid_cache h then Some (card h, h)
    else
      hist <- reghisto h ;;
      Some (est hist, {| enc := enc h; card := est hist; body := body h |})
  else Some (0, h).

(** The sketches a user can come to.
    [Init hs]: HLL_INIT(v, ...), internal_functions.cpp:2310-2321.
    [Add e hs]: HLL_ADD(e, v, ...), internal_functions.cpp:2293-2308.
    [Merge e1 e2]: HLL_MERGE(e1, e2), internal_functions.cpp:2323-2336; more
    arguments are merged one after the other.
    [Group]: a group of an aggregate before its first row, agg_fn_call.cpp:420-436.
    [Row e hs]: rows added by HLL_ADD_AGG, agg_fn_call.cpp:585-594.
    [Join e1 e2]: a row of HLL_MERGE_AGG, or the partial result of another store
    merged in, agg_fn_call.cpp:595-603, 745-757 and 843-850.
    [Stored e]: the value written to a column, insert_manager_node.cpp:203-208.
    [Shown e]: the value after its estimate was asked for once, which writes the
    cache.
    The values are given by their hashes. *)
Inductive expr :=
| Init (hs : list N)
| Add (e : expr) (hs : list N)
| Merge (e1 e2 : expr)
| Group
| Row (e : expr) (hs : list N)
| Join (e1 e2 : expr)
| Stored (e : expr)
| Shown (e : expr).

Fixpoint add_all (h : hll) (hs : list N) : option hll :=
  match hs with
  | [] => Some h
  | x :: t => r <- hll_add h x ;; add_all (snd r) t
  end.

Fixpoint eval (est : list N -> N) (e : expr) : option hll :=
  match e with
  | Init hs => add_all sparse_init hs
  | Add e hs => h <- eval est e ;; add_all h hs
  | Merge e1 e2 =>
      h1 <- eval est e1 ;; h2 <- eval est e2 ;; r <- hll_merge h1 h2 ;; Some (snd r)
  | Group => Some row_init
  | Row e hs => h <- eval est e ;; add_all h hs
  | Join e1 e2 =>
      h1 <- eval est e1 ;; h2 <- eval est e2 ;; r <- hll_merge_agg h1 h2 ;; Some (snd r)
  | Stored e => h <- eval est e ;; raw_to_sparse h
  | Shown e => h <- eval est e ;; r <- hll_estimate est h ;; Some (snd r)
  end.
