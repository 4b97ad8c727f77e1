(** Cones given by equations and signs, and what 4ti2 should compute. *)
From Coq Require Import QArith.
From Verif Require Import Common PipedSpec ConeSpec CountSpec VertexCones.
Open Scope Z_scope.

(** z satisfies the equations A z = 0 in d unknowns, and is nonnegative in the columns marked. *)
Definition in_signed_cone (A : list (list Z)) (d : nat) (rs : list bool) (z : nat -> Q) : Prop :=
  (forall a, In a A -> (sumq d (fun k => inject_Z (nth k a 0%Z) * z k) == 0)%Q) /\ (forall k, (k < d)%nat -> nth k rs false = true -> (0 <= z k)%Q).
Definition zero_upto (d : nat) (z : nat -> Q) : Prop := forall k, (k < d)%nat -> (z k == 0)%Q.
(** z is on an extreme ray: if it is a sum of two points of the cone, these are multiples of z. *)
Definition extreme (C : (nat -> Q) -> Prop) (d : nat) (z : nat -> Q) : Prop :=
  C z /\ ~ zero_upto d z /\ forall x y, C x -> C y -> (forall k, (k < d)%nat -> (z k == x k + y k)%Q) -> exists q, forall k, (k < d)%nat -> (x k == q * z k)%Q.
(** 4ti2: the subspace is empty exactly if the cone has no line; then the rays generate the cone and are its extreme rays, each once. *)
Definition pointed (C : (nat -> Q) -> Prop) (d : nat) : Prop := forall z, C z -> C (fun k => - z k)%Q -> zero_upto d z.
Definition ray_contract (F : ray_algorithm) (A : list (list Z)) (d : nat) (rs : list bool) : Prop :=
  let C := in_signed_cone A d rs in let '(rays, subspace) := F A d rs in
  (subspace = [] <-> pointed C d) /\
  (pointed C d ->
    (forall r, In r rays -> length r = d /\ extreme C d (zpoint r)) /\
    (forall z, extreme C d z -> exists r q, In r rays /\ (0 < q)%Q /\ forall k, (k < d)%nat -> (z k == q * zpoint r k)%Q) /\
    (forall z, C z -> exists w, (forall i, (i < length rays)%nat -> (0 <= w i)%Q) /\ forall k, (k < d)%nat -> (z k == sumq (length rays) (fun i => w i * zpoint (nth i rays []) k))%Q) /\
    (forall i j q, (i < j)%nat -> (j < length rays)%nat -> (0 < q)%Q -> ~ forall k, (k < d)%nat -> (zpoint (nth i rays []) k == q * zpoint (nth j rays []) k)%Q)).
(** r is a divided by its content. *)
Definition primitive_of (a r : list Z) : Prop := exists g, 0 < g /\ a = map (Z.mul g) r /\ ((exists x, In x a /\ x <> 0) -> fold_right Z.gcd 0 r = 1).
(** The polyhedron contains no line. *)
Definition no_line (n : nat) (rows : list (list Z)) : Prop :=
  forall y, (forall c, In c rows -> (sumq n (fun k => y k * inject_Z (nth (S k) c 0%Z)) == 0)%Q) -> forall k, (k < n)%nat -> (y k == 0)%Q.
