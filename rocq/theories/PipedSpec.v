(** Simplicial cones and their fundamental parallelepipeds. *)
From Coq Require Import QArith.
From Verif Require Import Common RatVec RatVecSpec.
Open Scope Q_scope.

(** Coordinate i of vector number k of a list. *)
Definition vat (l : list (list Z)) (k i : nat) : Z := nth i (nth k l []) 0%Z.
Fixpoint sumz (n : nat) (f : nat -> Z) : Z := match n with O => 0%Z | S m => (sumz m f + f m)%Z end.
Fixpoint sumq (n : nat) (f : nat -> Q) : Q := match n with O => 0 | S m => sumq m f + f m end.
Definition n_vectors (n : nat) (l : list (list Z)) : Prop := length l = n /\ Forall (fun r => length r = n) l.
(** No non-trivial integer combination of the vectors vanishes. *)
Definition lin_indep (n : nat) (l : list (list Z)) : Prop :=
  forall a, (forall i, (i < n)%nat -> sumz n (fun k => a k * vat l k i)%Z = 0%Z) -> forall k, (k < n)%nat -> a k = 0%Z.
(** facets and divisors dual to the rays *)
Definition dual_to (n : nat) (rays facets : list (list Z)) (divs : list Z) : Prop :=
  n_vectors n facets /\ length divs = n /\
  (forall i j, (i < n)%nat -> (j < n)%nat -> sumz n (fun k => vat rays i k * vat facets j k)%Z = if (i =? j)%nat then (- nth j divs 0)%Z else 0%Z) /\
  (forall j, (j < n)%nat -> (0 < nth j divs 0)%Z) /\
  (forall j, (j < n)%nat -> forall m, (forall k, (k < n)%nat -> (m | vat facets j k)%Z) -> (m | 1)%Z).
(** x lies in the half-open parallelepiped { v + sum of lambda_k ray_k, 0 <= lambda_k < 1 }. *)
Definition in_parallelepiped (n : nat) (v : rvec) (rays : list (list Z)) (x : list Z) : Prop :=
  length x = n /\ exists lam : nat -> Q, (forall k, (k < n)%nat -> 0 <= lam k /\ lam k < 1) /\
  forall i, (i < n)%nat -> inject_Z (nth i x 0%Z) == coord v i + sumq n (fun k => lam k * inject_Z (vat rays k i)).
