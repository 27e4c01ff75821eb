(* What a cache should answer, in terms of the history of its operations alone. *)
From Verif.Lru Require Import Model.
Local Open Scope Z_scope.

(* the value of the last add of k not deleted or cleared since; h is most recent first *)
Fixpoint last_value (h : list (op * option Z)) (k : Z) : option Z :=
  match h with
  | [] => None
  | (Add k' v, _) :: h' => if k' =? k then Some v else last_value h' k
  | (Del k', _) :: h' => if k' =? k then None else last_value h' k
  | (Clear, _) :: _ => None
  | (Find _, _) :: h' => last_value h' k
  end.
(* the key an operation uses: an add, or a find that hit *)
Definition uses (e : op * option Z) : option Z :=
  match e with
  | (Add k _, _) => Some k
  | (Find k, Some _) => Some k
  | _ => None
  end.
(* the distinct other keys used since the last use of k *)
Fixpoint used_since (h : list (op * option Z)) (k : Z) : list Z :=
  match h with
  | [] => []
  | e :: h' => match uses e with
               | Some k' => if k' =? k then [] else
                            let r := used_since h' k in if existsb (Z.eqb k') r then r else k' :: r
               | None => used_since h' k
               end
  end.
(* how many entries a cache with this threshold keeps *)
Definition capacity (threshold : Z) : Z := Z.max (threshold - 1) 1.
