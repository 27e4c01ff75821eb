(* Model of LikePredicate (include/expr/predicate.h, src/expr/predicate.cpp) and of the two
   places where the planner replaces a LIKE by an index range.  Strings are lists of bytes.
   An index into a string is represented by the suffix that starts there. *)
From Verif.Common Require Import Bytes.
Local Open Scope Z_scope.

(* pb::Charset as switched on at src/expr/predicate.cpp:511 *)
Inductive charset := CBinary | CUtf8 | CGbk.

(* src/expr/predicate.cpp:690-696 UTF8Charset::get_char_size: one plus the number of
   following bytes with (c & 0xC0) == 0x80 *)
Fixpoint cont_run (s : list Z) : nat :=
  match s with
  | b :: r => if Z.land b 0xC0 =? 0x80 then S (cont_run r) else O
  | [] => O
  end.
Definition char_size (s : list Z) : nat := S (cont_run (tl s)).

(* src/expr/predicate.cpp:698-722 UTF8Charset::next_code_point; [] is the empty Slice *)
Definition utf8_next (s : list Z) : list Z :=
  match s with
  | [] => []
  | b :: _ =>
      if Z.land b 0x80 =? 0 then [b]
      else if Z.land b 0xE0 =? 0xC0 then
        if (char_size s =? 2)%nat then firstn 2 s else []
      else if Z.land b 0xF0 =? 0xE0 then
        if (char_size s =? 3)%nat then firstn 3 s else []
      else if Z.land b 0xF0 =? 0xF0 then
        if (char_size s =? 4)%nat then firstn 4 s else []
      else []
  end.

(* include/expr/predicate.h:363-365 GBKCharset::in_range *)
Definition in_range (lo c hi : Z) : bool := (lo <=? c) && (c <=? hi).

(* src/expr/predicate.cpp:724-736 GBKCharset::next_code_point *)
Definition gbk_next (s : list Z) : list Z :=
  match s with
  | [] => []
  | b :: r =>
      if Z.land b 0x80 =? 0 then [b]
      else match r with
           | [] => []
           | c :: _ =>
               if in_range 0x81 b 0xFE && (in_range 0x40 c 0x7E || in_range 0x80 c 0xFE)
               then [b; c] else []
           end
  end.

(* include/expr/predicate.h:348-354 Binary::next_code_point *)
Definition binary_next (s : list Z) : list Z :=
  match s with [] => [] | b :: _ => [b] end.

Definition next_code_point (cs : charset) : list Z -> list Z :=
  match cs with CBinary => binary_next | CUtf8 => utf8_next | CGbk => gbk_next end.

(* rocksdb::Slice::compare(..) == 0 *)
Fixpoint beq (a b : list Z) : bool :=
  match a, b with
  | [], [] => true
  | x :: a', y :: b' => (x =? y) && beq a' b'
  | _, _ => false
  end.

Definition percent : list Z := [37].
Definition under_score : list Z := [95].
(* include/expr/predicate.h:411 _escape_char *)
Definition escape : list Z := [92].

(* what one turn of the loop yields: boost::none, a result, or another turn.  The state is
   (tx, px, resume): resume is (ntx, npx), and None stands both for ntx = 0 (no % seen yet)
   and for ntx > target.size() (a % was seen at the end of the target): the code tests
   "ntx > 0 && ntx <= target.size()" at line 565 and treats the two alike. *)
Inductive turn :=
| TNone
| TDone (b : bool)
| TGo (t p : list Z) (resume : option (list Z * list Z)).

(* include/expr/predicate.h:522-524 and 532-535: the width skipped for one target character *)
Definition offset (cs : charset) (t : list Z) : nat :=
  match next_code_point cs t with [] => 1%nat | c => length c end.

(* include/expr/predicate.h:565-570 *)
Definition give_up (resume : option (list Z * list Z)) : turn :=
  match resume with
  | Some (nt, np) => TGo nt np resume
  | None => TDone false
  end.

(* include/expr/predicate.h:511-573: one iteration of the while loop of
   LikePredicate::like<Charset> *)
Definition like_turn (cs : charset) (t p : list Z) (resume : option (list Z * list Z)) : turn :=
  match t, p with
  | [], [] => TDone true
  | _, [] => give_up resume
  | _, _ =>
      let pp := next_code_point cs p in
      if beq pp [] then TNone
      else if beq pp under_score then
        match t with
        | [] => give_up resume
        | _ => TGo (skipn (offset cs t) t) (skipn 1 p) resume
        end
      else if beq pp percent then
        TGo t (skipn 1 p)
            (match t with [] => None | _ => Some (skipn (offset cs t) t, p) end)
      else
        let p' := if beq pp escape && (1 <? length p)%nat then skipn 1 p else p in
        let pp' := next_code_point cs p' in
        if beq pp' [] then TNone
        else match t with
             | [] => give_up resume
             | _ =>
                 let tp := next_code_point cs t in
                 if beq tp [] then TNone
                 else if beq pp' tp then TGo (skipn (length tp) t) (skipn (length pp') p') resume
                 else give_up resume
             end
  end.

(* the result of LikePredicate::like: boost::none, a value, or out of fuel (the loop is
   shown never to need more than [like_fuel] iterations) *)
Inductive answer := ANone | ABool (b : bool) | AFuel.

Fixpoint like_loop (fuel : nat) (cs : charset) (t p : list Z) (resume : option (list Z * list Z)) : answer :=
  match fuel with
  | O => AFuel
  | S n =>
      match like_turn cs t p resume with
      | TNone => ANone
      | TDone b => ABool b
      | TGo t' p' r' => like_loop n cs t' p' r'
      end
  end.

Definition like_fuel (t p : list Z) : nat := (length p + 1 + length t * (length p + 2))%nat.

(* include/expr/predicate.h:502-573 LikePredicate::like *)
Definition like (cs : charset) (t p : list Z) : answer := like_loop (like_fuel t p) cs t p None.

(* src/expr/predicate.cpp:509-546 LikePredicate::like_one: a none result falls back to the
   byte-wise comparison *)
Definition like_one (cs : charset) (t p : list Z) : bool :=
  match like cs t p with
  | ABool b => b
  | _ => match like CBinary t p with ABool b => b | _ => false end
  end.

(* src/expr/predicate.cpp:548-567 LikePredicate::get_value_by_pattern for LIKE (not
   EXACT_LIKE), string operands; None is SQL NULL, whose str_val is empty because
   ExprValue::cast_to leaves a NULL alone (include/common/expr_value.h:502-505) and
   get_string of a NULL pattern is "" (include/common/expr_value.h:762-763) *)
Definition str_val (v : option (list Z)) : list Z := match v with Some s => s | None => [] end.
Definition like_value (cs : charset) (target pattern : option (list Z)) : option bool :=
  Some (like_one cs (str_val target) (str_val pattern)).

(* src/expr/predicate.cpp:493-506: the loop of LikePredicate::hit_index; returns is_eq and the
   bytes appended to prefix_value *)
Fixpoint hit_loop (p : list Z) (is_escaped : bool) : bool * list Z :=
  match p with
  | [] => (true, [])
  | c :: r =>
      if negb is_escaped && (c =? 37) then (false, [])
      else if negb is_escaped && (c =? 95) then (false, [])
      else if negb is_escaped && (c =? 92) then hit_loop r true
      else let '(e, s) := hit_loop r false in (e, c :: s)
  end.

(* src/expr/predicate.cpp:485-507 LikePredicate::hit_index; pattern[0] of an empty
   std::string is the terminating zero *)
Definition hit_index (p : list Z) : bool * bool * list Z :=
  let is_prefix := match p with [] => true | c :: _ => negb (c =? 37) && negb (c =? 95) end in
  let '(is_eq, prefix) := hit_loop p false in (is_eq, is_prefix, prefix).

(* src/physical_plan/index_selector.cpp:676-714 with src/exec/access_path.cpp:219-248: the
   rows an index on the column will be asked for.  LIKE_EQ looks up one value and drops the
   LIKE condition; LIKE_PREFIX looks up the keys that start with the prefix and keeps the
   condition; LIKE cannot use the index *)
Inductive index_range := IREqual (s : list Z) | IRPrefix (s : list Z) | IRAll.
Definition index_for_like (p : list Z) : index_range :=
  let '(is_eq, is_prefix, prefix) := hit_index p in
  if is_eq then IREqual prefix else if is_prefix then IRPrefix prefix else IRAll.

(* src/expr/expr_node.cpp:519-529: the upper bound.  The last byte that is not 255 is
   incremented and the bytes after it dropped; [rev s] is scanned from the end *)
Fixpoint drop_ff (r : list Z) : list Z :=
  match r with
  | c :: r' => if c =? 255 then drop_ff r' else (c + 1) :: r'
  | [] => []
  end.
Definition end_val (s : list Z) : list Z := rev (drop_ff (rev s)).

(* src/expr/expr_node.cpp:475-544 ExprNode::like_node_optimize for a constant LIKE pattern on
   a string column.  RUb: old_val.back() of an empty string.  RKeep: not rewritten.  RRange
   lo hi: the condition becomes column >= lo AND column < hi *)
Inductive rewrite := RUb | RKeep | RRange (lo hi : list Z).
Definition like_node_optimize (p : list Z) : rewrite :=
  let '(_, is_prefix, prefix) := hit_index p in
  if negb is_prefix || (length prefix + 1 <? length p)%nat then RKeep
  else match p with
       | [] => RUb
       | _ => if last p 0 =? 37 then RRange prefix (end_val prefix) else RKeep
       end.

(* src/expr/operators.cpp:91,101-102 ge_string_string and lt_string_string on non-NULL
   operands, combined by AND *)
Definition in_like_range (lo hi t : list Z) : bool :=
  match bcompare t lo with Lt => false | _ => match bcompare t hi with Lt => true | _ => false end end.
