(** Specification of the heaps and of the maximum found by digging. *)
From Coq Require Import Permutation.
From Verif Require Import Common ExpSpec DigHeap Dig.
Open Scope Z_scope.

(** The cost of a point. *)
Definition value_at (cost x : list Z) : Z := fold_right Z.add 0 (map (fun p => fst p * snd p) (combine cost x)).
(** x satisfies b + <a, x> >= 0 for every row (b, a) of the matrix. *)
Definition satisfies (matrix : list (list Z)) (x : list Z) : Prop := forall row, In row matrix -> 0 <= value_at row (1 :: x).
(** The matrix describes the points: integer solutions of its rows, each once. *)
Definition describes (n : nat) (matrix points : list (list Z)) : Prop :=
  (forall row, In row matrix -> length row = S n) /\ NoDup points /\ (forall x, In x points <-> length x = n /\ satisfies matrix x).
(** Signed cones with a numerator of one point, whose generating functions sum up to that of the points. *)
Definition decomposes (n : nat) (cones : list dcone) (points : list (list Z)) : Prop :=
  (forall c, In c cones -> (dc_coef c = 1 \/ dc_coef c = -1) /\ (1 <= length (dc_rays c) <= n)%nat /\ (forall r, In r (dc_rays c) -> length r = n) /\ length (dc_point c) = n) /\
  generates n (map (fun c => (dc_coef c, dc_rays c, [dc_point c])) cones) points.
(** No ray of the cones is orthogonal to the cost. *)
Definition orthogonal_to_no_ray (cost : list Z) (cones : list dcone) : Prop := forall c r, In c cones -> In r (dc_rays c) -> value_at cost r <> 0.
(** x is a point of largest cost, and there are k such points. *)
Definition a_maximum (cost : list Z) (points : list (list Z)) (x : list Z) (k : Z) : Prop :=
  In x points /\ (forall y, In y points -> value_at cost y <= value_at cost x) /\
  exists best, NoDup best /\ (forall y, In y best <-> In y points /\ value_at cost y = value_at cost x) /\ k = Z.of_nat (length best).
(** The heaps: what additions and removals leave in them. *)
Inductive heap_history {A} (key : A -> Z) : heap A -> list A -> Prop :=
| hh_empty : heap_history key empty_heap []
| hh_add h bag x h' : heap_history key h bag -> add_heap key x h = Ok h' -> heap_history key h' (x :: bag)
| hh_pop h bag x h' bag' : heap_history key h bag -> pop_heap key h = Ok (Some (x, h')) -> Permutation bag (x :: bag') -> heap_history key h' bag'.
