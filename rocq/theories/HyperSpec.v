(** What hypersimplices, Kneser graphs and edge polytopes are. *)
From Verif Require Import Common Graph GraphSpec Hyper.
Open Scope Z_scope.

(** A 0/1 vector of length n with k ones. *)
Definition zero_one (n k : nat) (v : list Z) : Prop :=
  length v = n /\ Forall (fun x => x = 0 \/ x = 1) v /\ fold_right Z.add 0 v = Z.of_nat k.
(** Vectors read as sets: nothing in common. *)
Definition no_common (p q : list Z) : Prop := forall t, ~ (nth t p 0 = 1 /\ nth t q 0 = 1).
(** The vector with x at a, y at b and 0 elsewhere. *)
Definition two_entries (n a b : nat) (x y : Z) : list Z :=
  map (fun t => if Nat.eqb t a then x else if Nat.eqb t b then y else 0) (seq 0 n).
(** Pascal's triangle. *)
Fixpoint binomial (n k : nat) : Z :=
  match k, n with
  | O, _ => 1
  | S _, O => 0
  | S k', S n' => binomial n' k' + binomial n' k
  end.
