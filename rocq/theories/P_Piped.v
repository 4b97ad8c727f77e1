(** Property theorems about simplicial cones and fundamental parallelepipeds (C26, C27). *)
From Coq Require Import QArith.
From Verif Require Import Common Hermite Det RatVec RatVecSpec Smith SmithSpec SmithProofs2 Piped PipedSpec PipedProofs PipedProofs4.
Open Scope Z_scope.

(** C27.  For n linearly independent integer rays no assertion fires, and afterwards facets
    and divisors are dual to the rays (<ray_i, facet_j> is 0 for i <> j and minus the
    divisor for i = j), divisors are positive, facets primitive, every divisor divides the
    determinant, which is that of the rays; dual_determinant is that of the facets. *)
Theorem facets_dual_to_rays : forall n rays, n_vectors n rays -> lin_indep n rays ->
  exists c, det_and_facets n rays = Ok c /\ s_rays c = rays /\ dual_to n rays (s_facets c) (s_divs c) /\
  s_det c = det n (fun i j => vat rays i j) /\ s_dual_det c = det n (fun i j => vat (s_facets c) i j) /\
  forall j, (j < n)%nat -> (nth j (s_divs c) 0 | s_det c).
Proof. exact det_and_facets_ok. Qed.
Print Assumptions facets_dual_to_rays.
Example facets_sample :
  det_and_facets 2 [[1;0];[1;2]] = Ok (mkCone 2 2 [[1;0];[1;2]] [[-2;1];[0;-1]] [2;2]) /\
  det_and_facets 3 [[1;2;0];[0;3;1];[0;0;-2]] = Ok (mkCone (-6) 3 [[1;2;0];[0;3;1];[0;0;-2]] [[-1;0;0];[2;-1;0];[2;-1;3]] [1;3;6]).
Proof. split; vm_compute; reflexivity. Qed.
(** Linear independence is not an empty hypothesis. *)
Example facets_hypothesis : n_vectors 2 [[1;0];[1;2]] /\ lin_indep 2 [[1;0];[1;2]].
Proof.
  split; [split; [reflexivity|repeat constructor]|]. apply det_indep. vm_compute. discriminate.
Qed.
(** Dependent rays are refused. *)
Theorem facets_dependent_rays : forall n rays, length rays = n -> ~ lin_indep n rays -> det_and_facets n rays = Err AssertFail.
Proof.
  intros n rays L H. unfold det_and_facets. rewrite L, Nat.eqb_refl. cbn [negb]. cbv zeta. destruct (Z.eqb_spec (det n (ent rays)) 0) as [|N]; [reflexivity|]. destruct H. now apply det_indep.
Qed.
Print Assumptions facets_dependent_rays.

(** C26.  Rays linearly independent, vertex any rational vector built through the API: the
    points returned are pairwise different and are exactly the integer points v + sum of
    lambda_k ray_k with 0 <= lambda_k < 1; there are |det| of them.  The only other outcome
    is the abort for numbers exceeding INT_MAX, possible only if |det| does. *)
Theorem parallelepiped_points_exact : forall xg n rays c v,
  xgcd_contract xg -> (0 < n)%nat -> n_vectors n rays -> lin_indep n rays -> det_and_facets n rays = Ok c ->
  (exists P k, (P = nonzero \/ P = positive) /\ reachable P k v) -> dim v = n ->
  exists fuel,
  (int_max < Z.abs (s_det c) /\ forall f, (fuel <= f)%nat -> points f xg n c v = Err Exited) \/
  exists ps, (forall f, (fuel <= f)%nat -> points f xg n c v = Ok ps) /\ NoDup ps /\
    (forall x, In x ps <-> in_parallelepiped n v rays x) /\ Z.of_nat (length ps) = Z.abs (s_det c).
Proof.
  intros xg n rays c v XG Hn NV LI E RV Dv. destruct (det_and_facets_cone_ok n rays c NV LI E) as [OK <-]. exact (points_exact xg n c v XG Hn OK RV Dv).
Qed.
Print Assumptions parallelepiped_points_exact.
(** The scalar products computed without storing points are those of exactly these points. *)
Theorem parallelepiped_scalar_products : forall xg n rays c v h,
  xgcd_contract xg -> (0 < n)%nat -> n_vectors n rays -> lin_indep n rays -> det_and_facets n rays = Ok c ->
  (exists P k, (P = nonzero \/ P = positive) /\ reachable P k v) -> dim v = n -> length h = n -> Z.abs (s_det c) <= int_max ->
  exists fuel ps, NoDup ps /\ (forall x, In x ps <-> in_parallelepiped n v rays x) /\
    forall f, (fuel <= f)%nat -> scalar_products f xg n c v h = Ok (map (fun x => sumz n (fun k => nth k h 0 * nth k x 0)) ps).
Proof.
  intros xg n rays c v h XG Hn NV LI E RV Dv Lh BD. destruct (det_and_facets_cone_ok n rays c NV LI E) as [OK <-]. exact (scalar_products_exact xg n c v h XG Hn OK RV Dv Lh BD).
Qed.
Print Assumptions parallelepiped_scalar_products.
(** Vertex (1/2, -1/3), rays (1,2), (-2,1) (index 5); and rays for which the Smith form
    routine returns a non-diagonal matrix (see P_Smith.v): the points are still right. *)
Example points_sample :
  match det_and_facets 2 [[1;2];[-2;1]] with
  | Ok c => points 20 xgcd_euclid 2 c (mkRV [1;-1] [2;3] false [] 0) = Ok [[0;0];[1;1];[-1;1];[0;2];[0;1]] /\
            scalar_products 20 xgcd_euclid 2 c (mkRV [1;-1] [2;3] false [] 0) [10;1] = Ok [1;2;-9;11;0]
  | Err _ => False
  end.
Proof. vm_compute. split; reflexivity. Qed.
Example points_despite_smith :
  match det_and_facets 2 [[-3;3];[0;-3]], smith 9 xgcd_euclid 2 (fun i j => ent [[-3;3];[0;-3]] j i) with
  | Ok c, Ok (D, _, _) => D 1%nat 0%nat = 6 /\ match points 20 xgcd_euclid 2 c (mkRV [0;0] [1;1] false [] 0) with Ok ps => length ps = 9%nat | Err _ => False end
  | _, _ => False
  end.
Proof. vm_compute. split; reflexivity. Qed.
