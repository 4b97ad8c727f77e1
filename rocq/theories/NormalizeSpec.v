(** Specification of hilbert-from-rays. *)
From Coq Require Import QArith.
From Verif Require Import Common PipedSpec ConeSpec CountSpec Normalize.
Open Scope Z_scope.

(** Integer points of the cone generated by V. *)
Definition cone_point (n : nat) (V : list (list Z)) (x : list Z) : Prop := length x = n /\ in_gen n V (zpoint x).
(** x is a sum of finitely many of the vectors G, repetitions allowed. *)
Inductive sum_of (n : nat) (G : list (list Z)) : list Z -> Prop :=
| no_summand x : length x = n -> (forall i, (i < n)%nat -> nth i x 0 = 0) -> sum_of n G x
| one_more x g y : sum_of n G x -> In g G -> length y = n -> (forall i, (i < n)%nat -> nth i y 0 = nth i x 0 + nth i g 0) -> sum_of n G y.
(** What zsolve is trusted with: points of the cone of which all integer points of the cone are sums. *)
Definition zsolve_contract (n : nat) (V : list (list Z)) (zsolve : nat -> list (list Z) -> outcome (option (list (list Z)))) : Prop :=
  forall k t homs, incl t V -> zsolve k t = Ok (Some homs) -> (forall h, In h homs -> cone_point n t h) /\ forall x, cone_point n t x -> sum_of n homs x.
(** What the triangulation is trusted with: cones generated by some of the rays that cover the cone. *)
Definition cover_contract (n : nat) (V : list (list Z)) (triang : nat -> list (list Z) -> outcome (list (list (list Z)))) : Prop :=
  forall k t cs, incl t V -> triang k t = Ok cs -> (forall c, In c cs -> incl c t) /\ forall x, cone_point n t x -> exists c, In c cs /\ cone_point n c x.
