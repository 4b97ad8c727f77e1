(** Integrals over rational polytopes as limits of Riemann sums, and polytopes given by
    their tangent cones. *)
From Coq Require Import QArith Qabs.
From Verif Require Import Common RatVec RatVecSpec IntegSpec ConeSpec CountSpec Valuation ValuationSpec2.
Open Scope Z_scope.

(** D > 0 and D times any vertex of { x : b + <a,x> >= 0 for the rows (b,a) } is an
    integer point. *)
Definition clears (n : nat) (rows : list (list Z)) (D : Z) : Prop :=
  0 < D /\ forall v, is_vertex n rows v -> forall i, (i < n)%nat -> exists z : Z, (inject_Z D * v i == inject_Z z)%Q.
(** (1/k^n) * sum of f(y/k) over the points y. *)
Definition riemann_mean (n : nat) (f : list Q -> Q) (k : Z) (points : list (list Z)) : Q :=
  (sum_over (fun y => f (map (fun z => inject_Z z / inject_Z k) y)) points / inject_Z (k ^ Z.of_nat n))%Q.
(** I is the integral of f over the polytope: whichever D clears the denominators of the
    vertices, I is the limit of the Riemann sums over the lattices (1/(kD)) Z^n. *)
Definition integral_over (n : nat) (rows : list (list Z)) (f : list Q -> Q) (I : Q) : Prop :=
  forall D, clears n rows D -> forall eps, (0 < eps)%Q -> exists K, 0 < K /\ forall k, K <= k ->
    exists points, integer_points n (map (dilate_row (k * D)) rows) points /\ (Qabs (riemann_mean n f (k * D) points - I) <= eps)%Q.
(** The cones are the tangent cones of the polytope at its vertices, each once: the cone
    at v consists of v plus the nonnegative combinations of its rays. *)
Definition tangent_cones (n : nat) (rows : list (list Z)) (cones : list vcone) : Prop :=
  all_vertices n rows (map (fun c => coord (vc_vertex c)) cones) /\
  forall c, In c cones -> rational_point n (vc_vertex c) /\ vc_coef c = 1 /\
    forall x, in_tangent_cone n rows (coord (vc_vertex c)) x <-> in_gen n (vc_rays c) (fun i => x i - coord (vc_vertex c) i)%Q.
(** Triangulating one of these cones, moved to any apex, gives simplicial cones with the
    same apex and coefficient which cover it and have disjoint interiors. *)
Definition triangulates_cones (n : nat) (T : nat -> vcone -> list vcone) (cones : list vcone) : Prop :=
  forall c v, In c cones ->
    let pieces := T n (mkVC v (vc_rays c) (vc_coef c)) in
    Forall (fun d => vc_vertex d = v /\ vc_coef d = vc_coef c) pieces /\ triangulates n (vc_rays c) (map vc_rays pieces).
