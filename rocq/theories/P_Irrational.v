(** Property theorems about irrationalised cones (C28). *)
From Coq Require Import QArith.
From Verif Require Import Common Hermite Det RatVec RatVecSpec Piped PipedSpec PipedProofs PipedProofs4 ConeSpec Irrational IrrationalProofs3.
Open Scope Z_scope.

(** C28.  For linearly independent rays and any vertex built through the API, and whatever
    depth was estimated: no assertion fires, the cone at the new vertex has exactly the same
    integer points as the cone at the old one, and none of them (indeed no integer point at
    all) lies on a hyperplane spanned by rays through the new vertex. *)
Theorem irrationalize_keeps_points : forall depth n rays c v,
  (0 < n)%nat -> n_vectors n rays -> lin_indep n rays -> det_and_facets n rays = Ok c ->
  (exists P k, (P = nonzero \/ P = positive) /\ reachable P k v) -> dim v = n ->
  exists nv, irrationalize depth n c v = Ok nv /\ dim nv = n /\
  (forall x, in_cone n (coord v) rays (zpoint x) <-> in_cone n (coord nv) rays (zpoint x)) /\
  (forall x, ~ on_wall n (coord nv) rays (zpoint x)).
Proof.
  intros depth n rays c v Hn NV LI E RV Dv. destruct (det_and_facets_cone_ok n rays c NV LI E) as [OK <-].
  destruct (irrationalize_main depth n c v Hn OK RV Dv) as (nv & E1 & D1 & _ & P1 & P2 & _). exists nv. auto.
Qed.
Print Assumptions irrationalize_keeps_points.
(** The new vertex keeps every cone irrational whose (primitive) facet vectors have entries
    up to 8 (n^depth C)^(n-1), C any ray entry: no integer point lies on the hyperplane
    <f, x> = <f, vertex>, not only for the facets of the cone itself. *)
Theorem irrationalize_small_facets : forall depth n rays c v nv,
  (0 < n)%nat -> n_vectors n rays -> lin_indep n rays -> det_and_facets n rays = Ok c ->
  (exists P k, (P = nonzero \/ P = positive) /\ reachable P k v) -> dim v = n -> irrationalize depth n c v = Ok nv ->
  forall C f, (exists r i, C = Z.abs (vat rays r i)) -> (forall k, (k < n)%nat -> Z.abs (f k) <= 8 * (Z.of_nat n ^ Z.of_nat depth * C) ^ Z.of_nat (n - 1)) ->
  (forall m, (forall k, (k < n)%nat -> (m | f k)) -> (m | 1)) ->
  forall t, ~ (sumq n (fun k => coord nv k * inject_Z (f k)) == inject_Z t)%Q.
Proof.
  intros depth n rays c v nv Hn NV LI E RV Dv EI. destruct (det_and_facets_cone_ok n rays c NV LI E) as [OK <-].
  destruct (irrationalize_main depth n c v Hn OK RV Dv) as (nv' & E1 & _ & _ & _ & _ & P). rewrite EI in E1. injection E1 as <-. exact P.
Qed.
Print Assumptions irrationalize_small_facets.
(** Vertex (1/2, -1/3), rays (1,2), (-2,1); vertex 0 (which is not irrational). *)
Example irrational_sample :
  match det_and_facets 2 [[1;2];[-2;1]] with
  | Ok c => irrationalize 2 2 c (mkRV [1;-1] [2;3] false [] 0) = Ok (mkRV [2176;-2047] [4096;4096] true [2176;-2047] 4096) /\
            is_irrational 2 c (mkRV [0;0] [1;1] false [] 0) = Ok false /\
            irrationalize 1 2 c (mkRV [0;0] [1;1] false [] 0) = Ok (mkRV [192;-639] [2048;2048] true [192;-639] 2048)
  | Err _ => False
  end.
Proof. vm_compute. repeat split; reflexivity. Qed.
(** The estimate of the depth is used only through the bound: 8 (2^2 * 2)^1 = 64 here. *)
Example irrational_hypotheses : n_vectors 2 [[1;2];[-2;1]] /\ lin_indep 2 [[1;2];[-2;1]] /\ (exists k, reachable positive k (mkRV [1;-1] [2;3] false [] 0)).
Proof.
  split; [split; [reflexivity|repeat constructor]|]. split; [apply det_indep; vm_compute; discriminate|].
  exists (CPair [1;-1] [2;3]). split; [cbn; split; [reflexivity|]; repeat constructor|]. exists (mkRV [1;-1] [2;3] false [] 0), []. split; [reflexivity|]. split; [constructor|reflexivity].
Qed.
