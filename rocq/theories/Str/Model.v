(** The string functions of src/expr/internal_functions.cpp, row at a time, and
    of src/expr/arrow_string_function.cpp, a column at a time.
    Simplified: a string argument is NULL, a string or an integer; a number
    argument is NULL or an int64 (other types are converted to one first);
    memory never runs out. *)
From Coq Require Import String Ascii ZArith NArith Decimal DecimalString Bool List Lia.
From Verif Require Import Str.Spec.
Import ListNotations.
Open Scope Z_scope.

(** ExprValue, include/common/expr_value.h:33-60: only the cases named above. *)
Inductive val := VNull | VStr (s : bytes) | VInt (z : Z).

(** Result of a function: NULL, a string, an integer, an exception or a read
    outside an array. *)
Inductive res := RNull | RStr (s : bytes) | RInt (z : Z) | RBad.

Fixpoint of_string (s : string) : bytes :=
  match s with
  | EmptyString => []
  | String c r => N_of_ascii c :: of_string r
  end.

(** std::to_string, used by get_string (expr_value.h:711-726). *)
Definition text (z : Z) : bytes := of_string (NilZero.string_of_int (Z.to_int z)).

(** ExprValue::get_string, expr_value.h:704-742; NULL gives "". *)
Definition get_string (v : val) : bytes :=
  match v with VNull => [] | VStr s => s | VInt z => text z end.

(** The member str_val read directly: empty unless the value is a string. *)
Definition str_val (v : val) : bytes :=
  match v with VStr s => s | _ => [] end.

Definition is_null (v : val) : bool := match v with VNull => true | _ => false end.

(** Conversion of an int64 to int: keep the low 32 bits. *)
Definition to_i32 (z : Z) : Z := (z + 2^31) mod 2^32 - 2^31.

(** get_numberic<int>() and get_numberic<int64_t>(), expr_value.h:340-360, 407-408;
    NULL gives 0. *)
Definition num32 (n : option Z) : Z := match n with Some z => to_i32 z | None => 0 end.
Definition num64 (n : option Z) : Z := match n with Some z => z | None => 0 end.

Definition nnull (n : option Z) : bool := match n with None => true | _ => false end.

(** std::string::find. *)
Fixpoint prefixb (sub s : bytes) : bool :=
  match sub, s with
  | [], _ => true
  | _ :: _, [] => false
  | a :: sub', b :: s' => N.eqb a b && prefixb sub' s'
  end.
Fixpoint find0 (sub s : bytes) : option nat :=
  if prefixb sub s then Some 0%nat
  else match s with
       | [] => None
       | _ :: t => option_map S (find0 sub t)
       end.
Definition find_from (sub s : bytes) (p : nat) : option nat :=
  if (p <=? length s)%nat then option_map (Nat.add p) (find0 sub (skipn p s)) else None.

(** substr, internal_functions.cpp:402-436.  [n] is the optional third
    argument. *)
Definition substr (s : val) (p : option Z) (n : option (option Z)) : res :=
  if is_null s || nnull p || match n with Some None => true | _ => false end then RNull
  else
    let str := get_string s in
    let p32 := num32 p in
    let pos := if p32 <? 0 then len str + p32 else p32 - 1 in
    if (pos <? 0) || (len str <=? pos) then RStr []
    else match n with
         | None => RStr (skipn (Z.to_nat pos) str)
         | Some n =>
             let l := num32 n in
             if l <=? 0 then RStr []
             else RStr (firstn (Z.to_nat l) (skipn (Z.to_nat pos) str))
         end.

(** left, internal_functions.cpp:438-455. *)
Definition left_ (s : val) (n : option Z) : res :=
  if is_null s || nnull n then RNull
  else
    let l := num32 n in
    if l <=? 0 then RStr [] else RStr (firstn (Z.to_nat l) (str_val s)).

(** right, internal_functions.cpp:457-478. *)
Definition right_ (s : val) (n : option Z) : res :=
  if is_null s || nnull n then RNull
  else
    let l := num32 n in
    if l <=? 0 then RStr []
    else
      let pos := len (str_val s) - l in
      let pos := if pos <? 0 then 0 else pos in
      RStr (skipn (Z.to_nat pos) (str_val s)).

(** erase(0, find_first_not_of(" ")): npos erases everything. *)
Fixpoint drop_lead (s : bytes) : bytes :=
  match s with
  | [] => []
  | b :: r => if N.eqb b sp then drop_lead r else s
  end.
(** erase(find_last_not_of(" ") + 1): npos + 1 is 0. *)
Definition drop_trail (s : bytes) : bytes := rev (drop_lead (rev s)).

(** trim, ltrim, rtrim, internal_functions.cpp:480-515: no test for NULL. *)
Definition trim (s : val) : res := RStr (drop_trail (drop_lead (str_val s))).
Definition ltrim (s : val) : res := RStr (drop_lead (str_val s)).
Definition rtrim (s : val) : res := RStr (drop_trail (str_val s)).

(** The loop that writes the padding, internal_functions.cpp:535-539,564-568. *)
Fixpoint padding (fuel : nat) (padlen : nat) (pad : bytes) : bytes :=
  match fuel with
  | O => []
  | S f => if (length pad <? padlen)%nat
           then pad ++ padding f (padlen - length pad) pad
           else firstn padlen pad
  end.

(** lpad, rpad, internal_functions.cpp:517-570: no test for NULL. *)
Definition lpad (s : val) (n : option Z) (pad : val) : res :=
  let str := get_string s in
  let l := num64 n in
  if (l <=? 0) || (65535 <? l) then RNull
  else if l <=? len str then RStr (firstn (Z.to_nat l) str)
  else
    let p := get_string pad in
    if (length p =? 0)%nat then RNull
    else let padlen := (Z.to_nat l - length str)%nat in
         RStr (padding (S padlen) padlen p ++ str).
Definition rpad (s : val) (n : option Z) (pad : val) : res :=
  let str := get_string s in
  let l := num64 n in
  if (l <=? 0) || (65535 <? l) then RNull
  else if l <=? len str then RStr (firstn (Z.to_nat l) str)
  else
    let p := get_string pad in
    if (length p =? 0)%nat then RNull
    else let padlen := (Z.to_nat l - length str)%nat in
         RStr (str ++ padding (S padlen) padlen p).

(** concat, internal_functions.cpp:391-400. *)
Fixpoint concat_ (l : list val) (acc : bytes) : res :=
  match l with
  | [] => RStr acc
  | v :: r => if is_null v then RNull else concat_ r (acc ++ get_string v)
  end.

(** concat_ws, internal_functions.cpp:572-600; [acc] is None until the first
    value has been written. *)
Fixpoint concat_ws_loop (sep : bytes) (l : list val) (acc : option bytes) : option bytes :=
  match l with
  | [] => acc
  | v :: r =>
      if is_null v then concat_ws_loop sep r acc
      else concat_ws_loop sep r
             (Some (match acc with
                    | None => get_string v
                    | Some t => t ++ sep ++ get_string v
                    end))
  end.
Definition concat_ws (sep : val) (l : list val) : res :=
  match l with
  | [] => RNull
  | _ => if is_null sep then RNull
         else match concat_ws_loop (get_string sep) l None with
              | None => RNull
              | Some t => RStr t
              end
  end.

(** insert, internal_functions.cpp:688-717.  Where the code returns input[0]
    the call casts it to the column type STRING (scalar_fn_call.cpp:224). *)
Definition insert (s : val) (p n : option Z) (new : val) : res :=
  if is_null s || nnull p || nnull n || is_null new then RNull
  else
    let pos := num32 p in
    if pos <? 1 then RStr (get_string s)
    else
      let pos := pos - 1 in
      let l := num32 n in
      if l <=? 0 then RStr (get_string s)
      else if len (str_val s) <=? pos then RStr (str_val s)
      else RStr (firstn (Z.to_nat pos) (str_val s) ++ str_val new ++
                 skipn (Z.to_nat (pos + l)) (str_val s)).

(** The loop of replace, internal_functions.cpp:735-742; None: not finished. *)
Fixpoint replace_loop (fuel : nat) (from to tmp : bytes) (pos : nat) : option bytes :=
  match fuel with
  | O => None
  | S f =>
      match find_from from tmp pos with
      | Some p =>
          replace_loop f from to
            (firstn p tmp ++ to ++ skipn (p + length from) tmp) (p + length to)
      | None => Some tmp
      end
  end.
(** replace, internal_functions.cpp:719-745. *)
Definition replace (s from to : val) : res :=
  if is_null s then RNull
  else match str_val from with
       | [] => RStr (get_string s)
       | _ => match replace_loop (S (length (str_val s))) (str_val from) (str_val to)
                      (str_val s) 0 with
              | Some r => RStr r
              | None => RBad
              end
       end.

(** repeat, internal_functions.cpp:747-770. *)
Definition repeat_ (s : val) (n : option Z) : res :=
  if is_null s then RNull
  else
    let l := num32 n in
    if l <=? 0 then RNull
    else RStr (List.concat (List.repeat (get_string s) (Z.to_nat l))).

(** reverse, internal_functions.cpp:772-786. *)
Definition reverse_ (s : val) : res :=
  if is_null s then RNull else RStr (rev (get_string s)).

(** locate, internal_functions.cpp:788-813.  A negative begin_pos becomes a
    huge size_t, past the end of every string. *)
Definition locate (sub s : val) (p : option (option Z)) : res :=
  if is_null sub || is_null s || match p with Some None => true | _ => false end then RNull
  else
    let begin_pos := match p with Some n => num32 n - 1 | None => 0 end in
    if begin_pos <? - 2^31 then RBad (* signed overflow *)
    else match (if begin_pos <? 0 then None
                else find_from (get_string sub) (get_string s) (Z.to_nat begin_pos)) with
         | Some i => RInt (Z.of_nat i + 1)
         | None => RInt 0
         end.

(** instr, internal_functions.cpp:815-835. *)
Definition instr (s sub : val) : res := locate sub s None.

(** The search for all delimiters, internal_functions.cpp:1286-1294 and
    arrow_string_function.cpp:256-265. *)
Fixpoint cuts (fuel : nat) (sub str : bytes) (last : nat) : list nat :=
  match fuel with
  | O => []
  | S f => match find_from sub str last with
           | Some p => p :: cuts f sub str (p + length sub)
           | None => []
           end
  end.

(** substring_index, internal_functions.cpp:1263-1313. *)
Definition substring_index (s sep : val) (n : option Z) : res :=
  if is_null s || is_null sep || nnull n then RNull
  else
    let pos := num32 n in
    if pos =? 0 then RStr []
    else
      let str := get_string s in
      let sub := get_string sep in
      match sub with
      | [] => RStr []
      | _ =>
          let pv := cuts (S (length str)) sub str 0 in
          if 0 <? pos then
            if pos <=? Z.of_nat (length pv) then
              match nth_error pv (Z.to_nat (pos - 1)) with
              | Some k => RStr (firstn k str)
              | None => RBad
              end
            else RStr str
          else if pos =? - 2^31 then RBad (* -pos overflows *)
          else
            let pos := - pos in
            if pos <=? Z.of_nat (length pv) then
              match nth_error pv (Z.to_nat (Z.of_nat (length pv) - pos)) with
              | Some k => RStr (skipn (k + length sub) str)
              | None => RBad
              end
            else RStr str
      end.

(** The loop of split_part, internal_functions.cpp:627-643. *)
Fixpoint split_loop (fuel : nat) (str sub : bytes) (start : nat) (cur want : Z) : res :=
  match fuel with
  | O => RBad
  | S f =>
      match find_from sub str start with
      | Some e =>
          if cur =? want then RStr (firstn (e - start) (skipn start str))
          else split_loop f str sub (e + length sub) (cur + 1) want
      | None => if cur =? want then RStr (skipn start str) else RStr []
      end
  end.
(** split_part, internal_functions.cpp:602-650. *)
Definition split_part (s sep : val) (n : option Z) : res :=
  if is_null s || is_null sep || nnull n then RNull
  else
    let want := num32 n in
    if want <=? 0 then RNull
    else split_loop (S (length (get_string s) + Z.to_nat want))
           (get_string s) (get_string sep) 0 1 want.

(** * A column at a time *)

(** Kernel "binary_slice" of Arrow with step 1: the slice [start, stop) where a
    negative bound counts from the end and a bound outside is moved to the
    nearest end.  Taken from Arrow's documentation, not from /repo. *)
Definition slice (s : bytes) (start stop : Z) : bytes :=
  let clamp z := Z.max 0 (Z.min (len s) (if z <? 0 then len s + z else z)) in
  firstn (Z.to_nat (clamp stop - clamp start)) (skipn (Z.to_nat (clamp start)) s).

Definition on_row (f : bytes -> res) (v : val) : res :=
  match v with VNull => RNull | _ => f (get_string v) end.

(** arrow_substr, arrow_string_function.cpp:98-119.  build_arrow_expr_with_cast
    turns every row into its text. *)
Definition v_substr (rows : list val) (p : option Z) (n : option (option Z)) : list res :=
  let start := num64 p in
  let start := if 0 <? start then start - 1 else start in
  let stop := match n with
              | None => 2^63 - 1
              | Some n => if num64 n <? 0 then start else start + num64 n
              end in
  map (on_row (fun s => if 2^63 - 1 <? stop then RBad else RStr (slice s start stop))) rows.

(** The kernel SubstringIndex, arrow_string_function.cpp:245-285: [pos] is
    captured by reference, so what one row writes the next row reads.
    None: a read outside pos_vec. *)
Definition index_row (sub : bytes) (pos : Z) (v : bytes) : option (Z * bytes) :=
  let pv := cuts (S (length v)) sub v 0 in
  if 0 <? pos then
    if pos <=? Z.of_nat (length pv) then
      match nth_error pv (Z.to_nat (pos - 1)) with
      | Some k => Some (pos, firstn k v)
      | None => None
      end
    else Some (pos, v)
  else
    let pos := - pos in
    if pos <=? Z.of_nat (length pv) then
      let pos := Z.of_nat (length pv) - pos in
      match nth_error pv (Z.to_nat pos) with
      | Some k => Some (pos, skipn (k + length sub) v)
      | None => None
      end
    else Some (pos, v).
Fixpoint index_rows (sub : bytes) (pos : Z) (rows : list val) : option (list res) :=
  match rows with
  | [] => Some []
  | VNull :: r => option_map (cons RNull) (index_rows sub pos r)
  | v :: r =>
      match index_row sub pos (get_string v) with
      | Some (pos', o) => option_map (cons (RStr o)) (index_rows sub pos' r)
      | None => None
      end
  end.
(** arrow_substring_index, arrow_string_function.cpp:157-174. *)
Definition v_substring_index (rows : list val) (sep : val) (n : option Z) : option (list res) :=
  if is_null sep || nnull n then Some (map (fun _ => RNull) rows)
  else if (length (get_string sep) =? 0)%nat || (num64 n =? 0)
  then Some (map (fun _ => RStr []) rows)
  else index_rows (get_string sep) (num64 n) rows.

(** Kernel "replace_substring" of Arrow: all occurrences from the left without
    overlap (Arrow's documentation). *)
Fixpoint replace_kernel (fuel : nat) (from to s : bytes) : bytes :=
  match fuel with
  | O => s
  | S f => match find0 from s with
           | Some p => firstn p s ++ to ++ replace_kernel f from to (skipn (p + length from) s)
           | None => s
           end
  end.
(** arrow_replace, arrow_string_function.cpp:176-194. *)
Definition v_replace (rows : list val) (from to : val) : list res :=
  let f := get_string from in
  map (on_row (fun s => RStr (if (length f =? 0)%nat then s
                              else replace_kernel (S (length s)) f (get_string to) s))) rows.

(** arrow_reverse, arrow_string_function.cpp:66-74. *)
Definition v_reverse (rows : list val) : list res :=
  map (on_row (fun s => RStr (rev s))) rows.

(** arrow_repeat, arrow_string_function.cpp:141-155. *)
Definition v_repeat (rows : list val) (n : option Z) : list res :=
  let times := to_i32 (num64 n) in
  map (fun v => if times <=? 0 then RNull
                else on_row (fun s => RStr (List.concat (List.repeat s (Z.to_nat times)))) v) rows.

(** Kernel "binary_join_element_wise" with nulls skipped, arrow_concat_ws
    (arrow_string_function.cpp:43-64): a NULL separator gives NULL. *)
Definition v_concat_ws (sep : val) (l : list val) : res :=
  match l with
  | [] => RNull
  | _ => if is_null sep then RNull
         else RStr (join (get_string sep)
                      (map get_string (filter (fun v => negb (is_null v)) l)))
  end.

(** Kernel "binary_join_element_wise" with nulls emitted, arrow_concat
    (arrow_string_function.cpp:27-41). *)
Definition v_concat (l : list val) : res :=
  if existsb is_null l then RNull else RStr (List.concat (map get_string l)).
