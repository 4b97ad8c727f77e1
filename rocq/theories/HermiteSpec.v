(** Hermite reduction: what the result means. *)
From Coq Require Import Permutation.
From Verif Require Import Common ZMat Hermite.
Open Scope Z_scope.

(** n rows of m entries. *)
Definition is_mat (S : list (list Z)) (n m : nat) : Prop := length S = n /\ Forall (fun r => length r = m) S.
(** The result (rank, S', U, rhs') for the input S, rhs: U is invertible over the integers
    and U S = S' up to a column permutation [p] which rhs' undergoes as well; the first
    [rank] columns of S' are upper triangular with positive diagonal and the rows from
    [rank] on vanish. *)
Definition hermite_result (n m : nat) (S : list (list Z)) (rhs : list Z) (rank : nat) (S' U : list (list Z)) (rhs' : list Z) : Prop :=
  is_mat S' n m /\ is_mat U n n /\ length rhs' = length rhs /\ (rank <= Nat.min n m)%nat /\
  invertible n (ent U) /\
  (exists p, Permutation p (seq 0 m) /\
     (forall j, (j < m)%nat -> nth j rhs' 0 = nth (nth j p 0%nat) rhs 0) /\
     (forall j, (m <= j)%nat -> nth j rhs' 0 = nth j rhs 0) /\
     forall i j, (i < n)%nat -> (j < m)%nat -> zsum n (fun k => ent U i k * ent S k (nth j p 0%nat)) = ent S' i j) /\
  (forall j, (j < rank)%nat -> 0 < ent S' j j) /\
  (forall i j, (j < rank)%nat -> (j < i)%nat -> (i < n)%nat -> ent S' i j = 0) /\
  (forall i j, (rank <= i)%nat -> (i < n)%nat -> (j < m)%nat -> ent S' i j = 0).
(** The integer linear combination of the vectors [basis] with coefficients y, entry i. *)
Definition combination (basis : list (list Z)) (y : nat -> Z) (i : nat) : Z := zsum (length basis) (fun k => y k * ent basis k i).
(** alpha_1 x_1 + ... + alpha_n x_n *)
Definition dotp (alpha : list Z) (x : nat -> Z) : Z := zsum (length alpha) (fun i => nth i alpha 0 * x i).
