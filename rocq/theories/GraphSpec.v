(** What the generated graphs should be. *)
From Coq Require Import Relations.
From Verif Require Import Common Graph.
Open Scope Z_scope.

Definition order (g : graph) : nat := length (edges g).
(** The edge between a and b. *)
Definition adjacent (g : graph) (a b : nat) : Prop := In b (nth a (edges g) []) \/ In a (nth b (edges g) []).
Definition size (g : graph) : nat := list_sum (map (@length nat) (edges g)).
(** Stored the documented way: once, in the list of the smaller end, ends are vertices. *)
Definition stored (g : graph) : Prop :=
  numVertex g = Z.of_nat (order g) /\
  forall a, (a < order g)%nat -> NoDup (nth a (edges g) []) /\ Forall (fun b => (a <= b < order g)%nat) (nth a (edges g) []).
Definition loop_free (g : graph) : Prop := forall a, ~ adjacent g a a.
(** A simple graph on [n] vertices. *)
Definition simple (n : Z) (g : graph) : Prop := numVertex g = n /\ stored g /\ loop_free g.
Definition joined (g : graph) : nat -> nat -> Prop := clos_refl_trans nat (adjacent g).
Definition connected (g : graph) : Prop := forall a b, (a < order g)%nat -> (b < order g)%nat -> joined g a b.
(** A tree: connected with one edge less than vertices. *)
Definition tree (n : Z) (g : graph) : Prop := simple n g /\ connected g /\ Z.of_nat (size g) = n - 1.

(** A stream of random numbers in which, whatever was drawn before, every pair of
    residues modulo n still comes up at an even distance. *)
Definition fair (rnd : nat -> nat) (n : nat) : Prop :=
  forall pos a b, (a < n)%nat -> (b < n)%nat -> exists k,
    (rnd (pos + 2 * k) mod n = a)%nat /\ (rnd (pos + 2 * k + 1) mod n = b)%nat.

(** Neighbours on a cycle of length n. *)
Definition cyclic (n a b : nat) : Prop := (a < n /\ b < n /\ (b = (a + 1) mod n \/ a = (b + 1) mod n))%nat.
(** Neighbours on a board: same row and consecutive columns or same column and consecutive rows. *)
Definition board (p q : nat * nat) : Prop :=
  (fst p = fst q /\ (snd q = snd p + 1 \/ snd p = snd q + 1))%nat \/ (snd p = snd q /\ (fst q = fst p + 1 \/ fst p = fst q + 1))%nat.
(** The Petersen graph: the ten 2-element subsets of {0,...,4}, disjoint ones adjacent. *)
Definition two_subsets : list (nat * nat) := [(0,1);(2,3);(0,4);(1,2);(3,4);(2,4);(1,4);(1,3);(0,3);(0,2)]%nat.
Definition disjoint (p q : nat * nat) : Prop := fst p <> fst q /\ fst p <> snd q /\ snd p <> fst q /\ snd p <> snd q.
(** Typed pairs before the first -1 whose ends are vertices. *)
Fixpoint typed (n : Z) (l : list (Z * Z)) : list (Z * Z) :=
  match l with
  | [] => []
  | (a, b) :: l' => if a =? -1 then [] else if (0 <=? a) && (a <? n) && (0 <=? b) && (b <? n) then (a, b) :: typed n l' else typed n l'
  end.
