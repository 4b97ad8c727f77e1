(** Model of the choice of short vectors (code/latte/barvinok/ComputeOmega.cpp:33-185).
    NTL's LLL and LatticeSolve are parameters: [lll A] gives the new basis and the
    transformation matrix, [solve A y] a vector x with x A = y (None: return value 0, x
    untouched).  The vector [Array] (lines 100, 160, 171) is never read and not modelled. *)
From Verif Require Import Common ZMat Hermite Det Piped Irrational.
Open Scope Z_scope.
Definition matrix := list (list Z).

(** ComputeOmega.cpp:33-41: the largest absolute value of an entry. *)
Definition norm (x : list Z) (m : nat) : Z := fold_left (fun s i => if s <? Z.abs (nth i x 0) then Z.abs (nth i x 0) else s) (seq 0 m) 0.
(** -transpose(Dual), line 65. *)
Definition neg_transpose (m : nat) (D : matrix) : matrix := map (fun i => map (fun j => - ent D j i) (seq 0 m)) (seq 0 m).
(** Lines 72-87: the row of least norm, if one has a norm below 1000000, else the first; rows
    are counted from 0 here. *)
Definition short_row (m : nat) (L : matrix) : nat :=
  snd (fold_left (fun '(pp, index) i => let p := norm (nth i L []) m in if negb (p =? 0) && (p <? pp) then (p, i) else (pp, index)) (seq 0 m) (1000000, 0%nat)).
(** Lines 123-129, 134: the last m decimal digits of c, minus 5. *)
Fixpoint numbers (m : nat) (c : Z) (acc : list Z) : list Z :=
  match m with O => acc | S k => numbers k (c / 10) (c mod 10 - 5 :: acc) end.
(** Lines 135-141: the combination of the rows of L with these coefficients. *)
Definition mix (m : nat) (x : list Z) (L : matrix) : list Z := map (fun k => zsum m (fun j => nth j x 0 * ent L j k)) (seq 0 m).
(** Lines 143-153 with 104-106: norm1 and ShortV after looking at one combination. *)
Definition better (m : nat) (L : matrix) (st : Z * list Z) (count : Z) : Z * list Z :=
  let v := mix m (numbers m count []) L in
  let nv := norm v m in
  if (nv <? fst st) && negb (nv =? 0) then (nv, v) else st.
(** Lines 119-155; count runs from 1 to 10^m - 1.  The counter i is an int: *)
Definition int_max : Z := 2147483647.
Definition box_search (m : nat) (L : matrix) (index : nat) : outcome (list Z) :=
  if int_max <? 10 ^ Z.of_nat m - 1 then Err IntOverflow
  else Ok (snd (fold_left (better m L) (map Z.of_nat (seq 1 (Z.to_nat (10 ^ Z.of_nat m - 1)))) (100000000, nth index L []))).
(** U(k), counted from 1. *)
Definition row_at (U : matrix) (m k : nat) : outcome (list Z) := if (1 <=? k)%nat && (k <=? m)%nat then Ok (nth (k - 1) U []) else Err OutOfBounds.
(** ComputeOmega.cpp:54-185 ComputeOmega(B, Dual, m, l, y); B is not used. *)
Definition compute_omega (lll : matrix -> matrix * matrix) (solve : matrix -> list Z -> option (list Z)) (Dual : matrix) (m l y : nat) : outcome (list Z) :=
  let LL := neg_transpose m Dual in
  let '(L, U) := lll LL in
  let index := short_row m L in
  if (l =? 2)%nat then
    bind (box_search m L index) (fun v => match solve LL v with Some z => Ok z | None => Ok (nth index U []) end)
  else if (l =? 1)%nat then
    if (m =? 0)%nat then Err DivByZero
    else let k := (S index mod m + y)%nat in if (k <=? m)%nat then row_at U m k else row_at U m (k mod m + 1)
  else Ok (nth index U []).
(** barvinok.cpp:317-345: the dual matrix is built from the cone (convert.cpp:61-80), and the
    short vector chosen with l = y.  Where ComputeOmega overflows (l = 2, m >= 10) this total
    function falls back to the first choice; the theorems using it are for m < 10. *)
Definition short_vector (lll : matrix -> matrix * matrix) (solve : matrix -> list Z -> option (list Z)) (l : nat) (rays : list (list Z)) : list Z :=
  let n := length rays in
  let choice k := bind (det_and_facets n rays) (fun c => bind (facet_matrix c) (fun Dual => compute_omega lll solve Dual n k k)) in
  match choice l with Ok z => z | Err _ => match choice 0%nat with Ok z => z | Err _ => [] end end.
