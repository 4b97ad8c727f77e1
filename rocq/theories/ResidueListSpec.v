(** Specification of Residue: the number of points from all the cones, and the search for the substitution. *)
From Verif Require Import Common Piped.
Open Scope Z_scope.

(** A list of cones (coefficient, rays, lattice points), each with m rays and one lattice point. *)
Definition unimodular_list (n m : nat) (cones : list (Z * list (list Z) * list (list Z))) : Prop :=
  (0 < m <= n)%nat /\ forall coef rays pts, In (coef, rays, pts) cones -> length rays = m /\ (forall r, In r rays -> length r = n) /\ exists p, pts = [p] /\ length p = n.
(** The entries of the vectors of loop 1 are -1, 0, 1, 2. *)
Definition small_vector (dim : nat) (l : list Z) : Prop := length l = dim /\ Forall (fun x => -1 <= x <= 2) l.
(** a comes before b in the lexicographic order. *)
Definition before (a b : list Z) : Prop := exists q, (forall j, (j < q)%nat -> nth j a 0 = nth j b 0) /\ nth q a 0 < nth q b 0.
(** lambda is orthogonal to no ray of the cones. *)
Definition orthogonal_to_none (lambda : list Z) (cones : list (Z * list (list Z) * list (list Z))) : Prop :=
  forall coef rays pts r, In (coef, rays, pts) cones -> In r rays -> zdot lambda r <> 0.
