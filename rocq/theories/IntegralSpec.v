(** Polytopes cut at their vertices into simplicial tangent cones, and integrals as limits of
    Riemann sums. *)
From Coq Require Import QArith Qabs.
From Verif Require Import Common IntegSpec PipedSpec ConeSpec CountSpec.
Open Scope Q_scope.

(** The simplicial cones Ts, moved to v, cover the tangent cone at v, and the interiors of
    two of them are disjoint. *)
Definition splits_tangent_cone (n : nat) (rows : list (list Z)) (v : list Z) (Ts : list (list (list Z))) : Prop :=
  (forall T, In T Ts -> n_vectors n T /\ lin_indep n T) /\
  (forall x, in_tangent_cone n rows (zpoint v) x <-> exists T, In T Ts /\ in_cone n (zpoint v) T x) /\
  (forall i j x, (i < j)%nat -> (j < length Ts)%nat -> ~ (in_open_cone n (zpoint v) (nth i Ts []) x /\ in_open_cone n (zpoint v) (nth j Ts []) x)).
Definition bounded (n : nat) (rows : list (list Z)) : Prop :=
  exists B : Z, forall x, in_polyhedron n rows x -> forall k, (k < n)%nat -> - inject_Z B <= x k <= inject_Z B.
(** I is the integral of <l, x>^m over the polytope: the limit of the Riemann sums
    (1/k^n) * sum of <l, y/k>^m over the integer points y of k times the polytope. *)
Definition riemann_sum (n : nat) (l : list Z) (m : nat) (k : Z) (points : list (list Z)) : Q :=
  sum_over (fun y => (inject_Z (dot l y) / inject_Z k) ^ Z.of_nat m) points / inject_Z (k ^ Z.of_nat n).
Definition is_integral (n : nat) (rows : list (list Z)) (l : list Z) (m : nat) (I : Q) : Prop :=
  forall eps, 0 < eps -> exists K, (0 < K)%Z /\ forall k, (K <= k)%Z ->
    exists points, integer_points n (map (dilate_row k) rows) points /\ Qabs (riemann_sum n l m k points - I) <= eps.
