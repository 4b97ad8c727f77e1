(** Polar cones, and what is asked of cdd, 4ti2 and zsolve. *)
From Coq Require Import QArith.
From Verif Require Import Common PipedSpec ConeSpec CountSpec VertexCones VertexConesSpec NormalizeSpec.
Open Scope Z_scope.

Definition with_lines (W L : list (list Z)) : list (list Z) := W ++ L ++ map (map Z.opp) L.
(** The y with <y, r> <= 0 for all r in V are exactly the nonnegative combinations of W plus any combination of L. *)
Definition polar_of (n : nat) (V W L : list (list Z)) : Prop := forall y, below n V y <-> in_gen n (with_lines W L) y.
(** 4ti2, for this matrix: the rays and the subspace generate the cone (rays alone: see ray_contract). *)
Definition generators_contract (F : ray_algorithm) (A : list (list Z)) (d : nat) (rs : list bool) : Prop := let '(rays, subspace) := F A d rs in
  forall z, in_signed_cone A d rs z <-> in_gen d (with_lines rays subspace) z.
(** cdd, for this matrix: generators of the points with <a, y> >= 0 for all rows a; some of them marked as lines, none if there is no line. *)
Definition cdd_contract (G : list (list Z) -> nat -> list (bool * list Z)) (A : list (list Z)) (n : nat) : Prop :=
  let rays := map snd (filter (fun p : bool * list Z => negb (fst p)) (G A n)) in let lines := map snd (filter (fun p : bool * list Z => fst p) (G A n)) in
  let C := fun y : nat -> Q => forall a, In a A -> (0 <= sumq n (fun k => y k * zpoint a k))%Q in
  (forall y, C y <-> in_gen n (with_lines rays lines) y) /\ (pointed C n -> lines = []).
(** Integer solutions of a system. *)
Definition dot (n : nat) (a x : list Z) : Z := sumz n (fun k => nth k a 0 * nth k x 0).
Definition solves (n : nat) (S : list (bool * list Z)) (x : list Z) : Prop := length x = n /\ forall p, In p S -> if fst p then dot n (snd p) x = 0 else dot n (snd p) x <= 0.
(** The Hilbert basis zsolve returns when no solution but 0 has a solution as its negative. *)
Definition zsolve_is_exact (n : nat) (zsolve : nat -> list (bool * list Z) -> option (list (list Z))) : Prop := forall k S homs, zsolve k S = Some homs ->
  (forall h, In h homs -> solves n S h) /\
  ((forall x, solves n S x -> solves n S (map Z.opp x) -> x = repeat 0 n) -> forall x, solves n S x -> sum_of n homs x).
