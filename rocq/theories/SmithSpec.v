(** Smith normal form: contract of XGCD and meaning of the result. *)
From Verif Require Import Common ZMat.
Open Scope Z_scope.

(** NTL XGCD(d, s, t, a, b): d = gcd(a, b) = a s + b t. *)
Definition xgcd_contract (xg : Z -> Z -> Z * Z * Z) : Prop :=
  forall a b, let '(d, s, t) := xg a b in d = Z.gcd a b /\ a * s + b * t = d.
Definition diagonal (n : nat) (A : zmat) : Prop := forall i j, (i < n)%nat -> (j < n)%nat -> i <> j -> A i j = 0.
(** L A R = S with L and R invertible over the integers. *)
Definition smith_transform (n : nat) (A S L R : zmat) : Prop :=
  invertible n L /\ invertible n R /\ meq n n (mmul n (mmul n L A) R) S.
