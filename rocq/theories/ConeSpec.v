(** Simplicial cones with apex v: vocabulary for the decomposition properties. *)
From Coq Require Import QArith.
From Verif Require Import Common RatVec RatVecSpec PipedSpec.
Open Scope Q_scope.

(** y is the combination of the n vectors with coefficients a. *)
Definition combination (n : nat) (vs : list (list Z)) (a : nat -> Q) (y : nat -> Q) : Prop :=
  forall i, (i < n)%nat -> y i == sumq n (fun k => a k * inject_Z (vat vs k i)).
(** x lies in v + { nonnegative combinations of the rays }. *)
Definition in_cone (n : nat) (v : nat -> Q) (rays : list (list Z)) (x : nat -> Q) : Prop :=
  exists a, (forall k, (k < n)%nat -> 0 <= a k) /\ combination n rays a (fun i => x i - v i).
(** x is in the interior *)
Definition in_open_cone (n : nat) (v : nat -> Q) (rays : list (list Z)) (x : nat -> Q) : Prop :=
  exists a, (forall k, (k < n)%nat -> 0 < a k) /\ combination n rays a (fun i => x i - v i).
(** x lies on the hyperplane through v spanned by all rays but one. *)
Definition on_wall (n : nat) (v : nat -> Q) (rays : list (list Z)) (x : nat -> Q) : Prop :=
  exists a j, (j < n)%nat /\ a j == 0 /\ combination n rays a (fun i => x i - v i).
(** The integer point with these coordinates. *)
Definition zpoint (z : list Z) : nat -> Q := fun i => inject_Z (nth i z 0%Z).
