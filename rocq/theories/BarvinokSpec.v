(** Signed decompositions of cones: vocabulary. *)
From Coq Require Import QArith.
From Verif Require Import Common Det RatVec RatVecSpec PipedSpec ConeSpec.
Open Scope Q_scope.

(** The signed number of cones of the list (coefficient, rays) for which [inside] holds. *)
Inductive signed_count (inside : list (list Z) -> Prop) : list (Z * list (list Z)) -> Z -> Prop :=
| sc_nil : signed_count inside [] 0
| sc_in : forall c r l k, inside r -> signed_count inside l k -> signed_count inside ((c, r) :: l) (c + k)
| sc_out : forall c r l k, ~ inside r -> signed_count inside l k -> signed_count inside ((c, r) :: l) k.
(** That number is [coef] if P holds and 0 otherwise. *)
Definition counts_to (inside : list (list Z) -> Prop) (l : list (Z * list (list Z))) (coef : Z) (P : Prop) : Prop :=
  (P -> signed_count inside l coef) /\ (~ P -> signed_count inside l 0).
(** x is on none of the hyperplanes through v with the given normals. *)
Definition off_hyperplanes (n : nat) (v : nat -> Q) (H : list (list Z)) (x : nat -> Q) : Prop :=
  forall h, In h H -> ~ sumq n (fun k => (x k - v k) * inject_Z (nth k h 0%Z)) == 0.
(** None of them is the zero vector. *)
Definition proper_normals (n : nat) (H : list (list Z)) : Prop := forall h, In h H -> exists k, (k < n)%nat /\ nth k h 0%Z <> 0%Z.
(** The polar cone at v of the cone generated by the vectors: <y - v, r> <= 0. *)
Definition in_polar (n : nat) (v : nat -> Q) (rays : list (list Z)) (x : nat -> Q) : Prop :=
  forall r, (r < n)%nat -> sumq n (fun k => (x k - v k) * inject_Z (vat rays r k)) <= 0.

(** NTL's image(): a non-trivial relation between the n+1 rows z, rays (rays independent). *)
Definition relation_contract (ker : list (list Z) -> list Z) : Prop :=
  forall n rays z, n_vectors n rays -> lin_indep n rays -> length z = n ->
  let r := ker (z :: rays) in
  (exists i, (i <= n)%nat /\ nth i r 0%Z <> 0%Z) /\ forall j, (j < n)%nat -> sumz (n + 1) (fun i => nth i r 0 * vat (z :: rays) i j)%Z = 0%Z.
(** Short vector: for independent rays a non-zero integer vector. *)
Definition omega_contract (omega : nat -> list (list Z) -> list Z) : Prop :=
  forall n l rays, (0 < n)%nat -> n_vectors n rays -> lin_indep n rays -> length (omega l rays) = n /\ exists k, (k < n)%nat /\ nth k (omega l rays) 0%Z <> 0%Z.
(** Putting z in the place of any of the rays makes the determinant smaller. *)
Definition lowers (n : nat) (rays : list (list Z)) (z : list Z) : Prop :=
  forall i, (i < n)%nat -> (Z.abs (det n (vat (firstn i rays ++ z :: skipn (S i) rays))) < Z.abs (det n (vat rays)))%Z.
(** In dimension n the first or the second choice of a short vector does so (unless the index is 1). *)
Definition decreasing (n : nat) (omega : nat -> list (list Z) -> list Z) : Prop :=
  forall rays, n_vectors n rays -> lin_indep n rays -> (1 < Z.abs (det n (vat rays)))%Z -> lowers n rays (omega 0%nat rays) \/ lowers n rays (omega 2%nat rays).
(** Short vectors whose entries have no common divisor. *)
Definition primitive_choice (omega : nat -> list (list Z) -> list Z) : Prop :=
  forall n l rays, (0 < n)%nat -> n_vectors n rays -> lin_indep n rays -> forall m, (forall k, (k < n)%nat -> (m | nth k (omega l rays) 0)%Z) -> (m | 1)%Z.
(** The values returned by the caller's function when given the list of objects in turn. *)
Fixpoint codes {A} (cons : list A -> A -> Z) (seen new : list A) : list Z :=
  match new with [] => [] | d :: t => cons seen d :: codes cons (seen ++ [d]) t end.
(** -1 asks to stop: nothing is passed on after it, and the result tells whether it occurred. *)
Definition stopped {A} (cons : list A -> A -> Z) (seen new : list A) (r : Z) : Prop :=
  ((r = -1 -> exists cs, codes cons seen new = cs ++ [-1] /\ Forall (fun k => k <> -1) cs) /\ (r <> -1 -> Forall (fun k => k <> -1) (codes cons seen new)))%Z.
