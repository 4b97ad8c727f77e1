(** Facets of simplicial cones and the hyperplane where the last coordinate is 0. *)
From Verif Require Import Common ZMat Hermite Det Piped.
Open Scope Z_scope.

(** A normal of the facet of the cone over the rays and w that does not contain ray l. *)
Definition facet_normal (n : nat) (rays : list (list Z)) (w : list Z) (l : nat) (b : list Z) : Prop :=
  length b = n /\ (exists k, nth k b 0 <> 0) /\ zdot b w = 0 /\ forall i r, nth_error rays i = Some r -> i <> l -> zdot b r = 0.
(** The determinant of the cone over the rays and w. *)
Definition cone_det (n : nat) (rays : list (list Z)) (w : list Z) : Z := det n (ent (rays ++ [w])).
(** w lies in the hyperplane of the rays, or no facet of the cone over the rays and w, besides
    the one given by the rays, has a normal with last coordinate 0. *)
Definition avoids (n : nat) (rays : list (list Z)) (w : list Z) : Prop :=
  cone_det n rays w = 0 \/ forall l b, (l < length rays)%nat -> facet_normal n rays w l b -> nth (n - 1) b 0 <> 0.
(** n - 1 independent rays with n coordinates. *)
Definition boundary_cone (n : nat) (rays : list (list Z)) : Prop :=
  S (length rays) = n /\ Forall (fun r => length r = n) rays /\ exists w, length w = n /\ cone_det n rays w <> 0.
(** LLL: a matrix U with n rows and columns and the product of U and alpha, with w columns. *)
Definition product_of (n w : nat) (U alpha alpha' : list (list Z)) : Prop :=
  length alpha' = n /\ forall i j, (i < n)%nat -> (j < w)%nat -> ent alpha' i j = zsum n (fun k => ent U i k * ent alpha k j).
Definition lll_contract (n : nat) (LLL : list (list Z) -> nat * list (list Z) * list (list Z)) : Prop :=
  forall w alpha, length alpha = n -> Forall (fun r => length r = w) alpha ->
  let '(rank, U, alpha') := LLL alpha in length U = n /\ Forall (fun r => length r = n) U /\ product_of n w U alpha alpha'.
(** The point is a combination of the vectors with coefficients that are not negative. *)
Definition spanned (vs : list (list Z)) (x : list Z) : Prop :=
  exists c k, 0 < k /\ length c = length vs /\ Forall (fun z => 0 <= z) c /\ forall j, k * nth j x 0 = zsum (length vs) (fun i => nth i c 0 * ent vs i j).
