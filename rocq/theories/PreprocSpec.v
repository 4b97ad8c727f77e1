(** Integer points of systems of equations and inequalities. *)
From Verif Require Import Common ZMat Hermite HermiteSpec Preproc.
Open Scope Z_scope.

(** t * b + a_1 x_1 + ... + a_n x_n for the row [b; a_1; ...; a_n]. *)
Definition row_value (n : nat) (t : Z) (a : list Z) (x : nat -> Z) : Z := t * nth 0 a 0 + zsum n (fun k => nth (k + 1) a 0 * x k).
(** x satisfies the equations / inequalities (of the t-fold dilation). *)
Definition sat_eqs (n : nat) (t : Z) (eqs : list (list Z)) (x : nat -> Z) : Prop := forall e, In e eqs -> row_value n t e x = 0.
Definition sat_ineqs (n : nat) (t : Z) (ineqs : list (list Z)) (x : nat -> Z) : Prop := forall a, In a ineqs -> 0 <= row_value n t a x.
(** Left-hand sides are linearly independent. *)
Definition independent (n : nat) (eqs : list (list Z)) : Prop :=
  forall c, (forall k, (k < n)%nat -> zsum (length eqs) (fun i => c i * ent eqs i (k + 1)) = 0) -> forall i, (i < length eqs)%nat -> c i = 0.
(** t * particular + sum_k y_k basis_k *)
Definition affine_point (t : Z) (part : list Z) (basis : list (list Z)) (y : nat -> Z) (i : nat) : Z := t * nth i part 0 + combination basis y i.
(** The reduced problem in length(basis) variables has, one for one, the integer points of
    the original one. *)
Definition corresponds (n : nat) (t : Z) (eqs ineqs : list (list Z)) (part : list Z) (basis rows : list (list Z)) : Prop :=
  (forall y, sat_eqs n t eqs (affine_point t part basis y)) /\
  (forall x, sat_eqs n t eqs x -> exists y, forall i, (i < n)%nat -> x i = affine_point t part basis y i) /\
  (forall y y', (forall i, (i < n)%nat -> affine_point t part basis y i = affine_point t part basis y' i) -> forall k, (k < length basis)%nat -> y k = y' k) /\
  (forall y, sat_ineqs (length basis) 1 rows y <-> sat_ineqs n t ineqs (affine_point t part basis y)).
