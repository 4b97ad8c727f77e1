(** Specification of the integer hull. *)
From Coq Require Import QArith.
From Verif Require Import Common ExpSpec Dig DigSpec Hull.
Open Scope Z_scope.

(** The value of a rational point under integers. *)
Definition qvalue (a : list Z) (x : list Q) : Q := fold_right Qplus 0%Q (map (fun p => inject_Z (fst p) * snd p)%Q (combine a x)).
(** x is a convex combination of the points, coordinate by coordinate. *)
Definition in_hull (points : list (list Z)) (x : list Q) : Prop :=
  exists w : list Q, length w = length points /\ (forall t, In t w -> 0 <= t)%Q /\ (fold_right Qplus 0 w == 1)%Q /\
    forall i, (i < length x)%nat -> (nth i x 0 == fold_right Qplus 0 (map (fun p : Q * list Z => fst p * inject_Z (nth i (snd p) 0%Z)) (combine w points)))%Q.
(** All points lie on one hyperplane b + <a, x> = 0. *)
Definition flat (n : nat) (points : list (list Z)) : Prop :=
  exists a b, length a = n /\ (exists i, nth i a 0 <> 0) /\ forall x, In x points -> b + value_at a x = 0.
(** The rows (b, a) describe the convex hull of the points: it is the set of all x with b + <a, x> >= 0 for every row. *)
Definition hull_rows (n : nat) (points rows : list (list Z)) : Prop :=
  forall x, length x = n -> (in_hull points x <-> forall row, In row rows -> (0 <= qvalue row (1 :: x))%Q).
(** What lrs is trusted with: the hull of points that do not lie on one hyperplane. *)
Definition lrs_contract (n : nat) (points : list (list Z)) (lrs : list (list Z) -> list (list Z)) : Prop :=
  (forall some row, In row (lrs some) -> length row = S n) /\
  forall some, some <> [] -> incl some points -> ~ flat n some -> hull_rows n some (lrs some).
(** What the solver returns is a point where the cost is largest. *)
Definition exact_solver (n : nat) (points : list (list Z)) (solve : nat -> list Z -> outcome (list Z)) : Prop :=
  forall k cost x, length cost = n -> solve k cost = Ok x -> In x points /\ forall y, In y points -> value_at cost y <= value_at cost x.
(** The solver always returns. *)
Definition total_solver (n : nat) (solve : nat -> list Z -> outcome (list Z)) : Prop := forall k cost, length cost = n -> exists x, solve k cost = Ok x.
(** How often x occurs. *)
Definition times (x : list Z) (l : list (list Z)) : nat := count_occ (list_eq_dec Z.eq_dec) l x.
