(** What is asked of NTL, and vocabulary for short vectors. *)
From Coq Require Import QArith.
From Verif Require Import Common ZMat Det PipedSpec.
Open Scope Z_scope.

(** [Dual] is the matrix of facet normals of the cone with these rays, scaled to the
    determinant. *)
Definition dual_matrix (n : nat) (rays Dual : list (list Z)) : Prop :=
  n_vectors n Dual /\ forall i j, (i < n)%nat -> (j < n)%nat -> sumz n (fun k => vat rays i k * vat Dual j k) = if (i =? j)%nat then - det n (vat rays) else 0.
(** (L, U): U is invertible over the integers, L = U A. *)
Definition new_basis (n : nat) (A : list (list Z)) (LU : list (list Z) * list (list Z)) : Prop :=
  let (L, U) := LU in
  n_vectors n L /\ n_vectors n U /\
  (exists W : nat -> nat -> Z, forall i j, (i < n)%nat -> (j < n)%nat -> sumz n (fun k => vat U i k * W k j) = (if (i =? j)%nat then 1 else 0) /\ sumz n (fun k => W i k * vat U k j) = (if (i =? j)%nat then 1 else 0)) /\
  forall i j, (i < n)%nat -> (j < n)%nat -> vat L i j = sumz n (fun k => vat U i k * vat A k j).
Definition lll_contract (lll : list (list Z) -> list (list Z) * list (list Z)) : Prop := forall n A, n_vectors n A -> det n (vat A) <> 0 -> new_basis n A (lll A).
(** A solution of x A = y is found if there is one (A square and non-singular). *)
Definition solves (n : nat) (A : list (list Z)) (x y : list Z) : Prop := length x = n /\ forall j, (j < n)%nat -> sumz n (fun k => nth k x 0 * vat A k j) = nth j y 0.
Definition solve_contract (solve : list (list Z) -> list Z -> option (list Z)) : Prop :=
  forall n A y, n_vectors n A -> det n (vat A) <> 0 -> length y = n -> (exists x, solves n A x y) -> exists x, solve A y = Some x /\ solves n A x y.
(** No common divisor. *)
Definition primitive (n : nat) (z : list Z) : Prop := forall m, (forall k, (k < n)%nat -> (m | nth k z 0)) -> (m | 1).
Definition with_ray (rays : list (list Z)) (i : nat) (z : list Z) : list (list Z) := firstn i rays ++ z :: skipn (S i) rays.
(** All determinants with z in the place of a ray are at most b. *)
Definition dets_within (n : nat) (rays : list (list Z)) (z : list Z) (b : Z) : Prop := forall i, (i < n)%nat -> Z.abs (det n (vat (with_ray rays i z))) <= b.
(** The combination of the rows of U with coefficients c. *)
Definition combines (n : nat) (c : nat -> Z) (U : list (list Z)) (z : list Z) : Prop := length z = n /\ forall k, (k < n)%nat -> nth k z 0 = sumz n (fun j => c j * vat U j k).
(** LLL-reduced with factor 1: the Gram-Schmidt vectors g of the rows of L, with coefficients
    mu at most 1/2, satisfy Lovasz' condition. *)
Definition lll_reduced (n : nat) (L : list (list Z)) : Prop :=
  exists g mu : nat -> nat -> Q,
  let dot i j := sumq n (fun k => g i k * g j k)%Q in
  (forall i k, (i < n)%nat -> (k < n)%nat -> inject_Z (vat L i k) == g i k + sumq i (fun j => mu i j * g j k))%Q /\
  (forall i j, (i < j)%nat -> (j < n)%nat -> dot i j == 0)%Q /\
  (forall i j, (j < i)%nat -> (i < n)%nat -> - (1 # 2) <= mu i j <= 1 # 2)%Q /\
  (forall i, (S i < n)%nat -> dot i i <= dot (S i) (S i) + mu (S i) i * mu (S i) i * dot i i)%Q.
Definition lll_reduces (lll : list (list Z) -> list (list Z) * list (list Z)) : Prop := forall n A, n_vectors n A -> det n (vat A) <> 0 -> lll_reduced n (fst (lll A)).
