(** Model of IntCombEnum (code/latte/genFunction/IntCombEnum.cpp).
    Entries are ints; every entry stays between 0 and its upper bound (proved), so no
    machine overflow arises and Z is used.  Pointers: getNext returns the object's own
    [next] buffer, so a caller must use the vector before the following call; the
    model returns its content at that time. *)
From Verif Require Import Common.
Open Scope Z_scope.

(** IntCombEnum.h:36-44, the private fields. *)
Record ice := mkIce { ub : list Z; prev : list Z; nxt : list Z; cur_col : Z }.
Definition len (s : ice) : nat := length (ub s).

(** IntCombEnum.cpp:29-42 constructor *)
Definition ice_new (u : list Z) : ice :=
  mkIce u (repeat 0 (length u)) (repeat 0 (length u)) (Z.of_nat (length u) - 1).

(** IntCombEnum.cpp:51-53 set_zero, memset of the columns lower..upper *)
Definition set_zero (v : list Z) (lower upper : nat) : list Z :=
  firstn lower v ++ repeat 0 (upper - lower + 1)%nat ++ skipn (upper + 1)%nat v.

(** IntCombEnum.cpp:95-110 is_last *)
Definition is_last (s : ice) : bool :=
  forallb (fun x => x =? 0) (prev s) && (cur_col s <? 0).

(** IntCombEnum.cpp:64-74, the carry loop: returns next and cur_col. *)
Fixpoint carry (fuel : nat) (s : ice) (next : list Z) (col : Z) : outcome (list Z * Z) :=
  if col <? 0 then Ok (next, col)
  else match fuel with
  | O => Err OutOfFuel
  | S f =>
      let next1 := set_zero next (Z.to_nat col) (len s - 1) in
      let col1 := col - 1 in
      if (0 <=? col1) && (nth (Z.to_nat col1) (prev s) 0 <? nth (Z.to_nat col1) (ub s) 0)
      then Ok (upd next1 (Z.to_nat col1) (nth (Z.to_nat col1) next1 0 + 1), Z.of_nat (len s) - 1)
      else carry f s next1 col1
  end.

(** IntCombEnum.cpp:55-81 getNext; [None] is NULL. *)
Definition get_next (s : ice) : outcome (ice * option (list Z)) :=
  if is_last s then Ok (s, None)
  else if cur_col s <? 0 then Err OutOfBounds
  else
    let n0 := prev s in
    let c := Z.to_nat (cur_col s) in
    bind (if nth c (prev s) 0 =? nth c (ub s) 0
          then carry (S (len s)) s n0 (cur_col s)
          else Ok (upd n0 c (nth c n0 0 + 1), cur_col s))
         (fun '(n1, c1) => Ok (mkIce (ub s) n1 n1 c1, Some n1)).

(** k successive calls and what they return. *)
Fixpoint get_many (k : nat) (s : ice) : outcome (ice * list (option (list Z))) :=
  match k with
  | O => Ok (s, [])
  | S k' => bind (get_next s) (fun '(s1, r) =>
            bind (get_many k' s1) (fun '(s2, rs) => Ok (s2, r :: rs)))
  end.
