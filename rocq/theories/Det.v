(** Determinants and adjugates of integer matrices: NTL's determinant and inv(d, X, A)
    (X = d * A^{-1}, d = det A) are exact library calls, modelled by the Laplace expansion. *)
From Verif Require Import Common ZMat.
Open Scope Z_scope.

Definition skip (j k : nat) : nat := if (k <? j)%nat then k else S k.
Definition minor (A : zmat) (i j : nat) : zmat := fun a b => A (skip i a) (skip j b).
Definition sgn_of (k : nat) : Z := if Nat.even k then 1 else -1.
Fixpoint det (n : nat) (A : zmat) : Z :=
  match n with O => 1 | S n' => zsum (S n') (fun j => A 0%nat j * (sgn_of j * det n' (minor A 0 j))) end.
Definition adj (n : nat) (A : zmat) : zmat := fun i j => sgn_of (j + i) * det (n - 1) (minor A j i).
