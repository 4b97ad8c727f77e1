(** Model of the integer programming solver binarySearch (code/latte/binarySearchIP.cpp).
    The external "count" program is a parameter (file -> number), and so are the two
    LP optima computed by cdd.  Simplification: the LP values, which the code keeps as
    150-bit floating point RR, are exact rationals here. *)
From Coq Require Import QArith Qround.
From Verif Require Import Common.
Open Scope Z_scope.

(** A LattE input file: rows b | -A and the 1-based indices in its linearity line. *)
Record lfile := mkFile { frows : list (list Z); flin : list nat }.

(** binarySearchIP.cpp:121-153 createLatteFileEqu *)
Definition file_equ (matrix ineq : list (list Z)) (rhs : Z) (lhs : list Z) : lfile :=
  mkFile (matrix ++ [- rhs :: lhs] ++ ineq) (1%nat :: map (fun i => (2 + i)%nat) (seq 0 (length matrix))).
(** binarySearchIP.cpp:174-203 createLatteFile *)
Definition file_ge (matrix ineq : list (list Z)) (rhs : Z) (lhs : list Z) : lfile :=
  mkFile (matrix ++ [- rhs :: lhs] ++ ineq) (map (fun i => (1 + i)%nat) (seq 0 (length matrix))).

Section Search.
Variable count : lfile -> Z.
Variables (matrix ineq : list (list Z)) (cost : list Z).
(** binarySearchIP.cpp:293-309, the loop; also counts iterations. *)
Fixpoint search (fuel : nat) (low high : Z) (counter : Z) : outcome (Z * Z * Z) :=
  if high - low =? 1 then Ok (low, high, counter)
  else match fuel with
  | O => Err OutOfFuel
  | S f =>
      let mid := (low + high) / 2 in
      let Opt := count (file_ge matrix ineq mid cost) in
      if negb (Opt =? 0) then search f mid high (counter + 1) else search f low mid (counter + 1)
  end.
Record answer := mkAns { printed : Z; number : Z; iterations : Z }.
(** binarySearchIP.cpp:226-321 binarySearch *)
Definition binary_search (fuel : nat) (rat_low rat_high : Q) (min : bool) : outcome answer :=
  let high0 := Qceiling rat_high in
  let Opt := count (file_equ matrix ineq high0 cost) in
  let high1 := high0 + 1 in
  let low1 := Qceiling rat_low in
  let '(low, high) := if high1 <? low1 then (high1, low1) else (low1, high1) in
  if negb (Opt =? 0) then Ok (mkAns (high - 1) Opt 0)
  else bind (search fuel low high 0) (fun '(low', _, n) =>
       Ok (mkAns (if min then - low' else low') (count (file_ge matrix ineq low' cost)) n)).
End Search.
