(** Independent vocabulary for list properties. *)
From Coq Require Import QArith.
From Verif Require Import Common ListOps.

(** [linked m p addrs xs]: from p one reaches exactly the nodes [addrs], in this
    order, carrying the payloads [xs], ending in NULL. *)
Inductive linked {A} (m : mem A) : ptr -> list addr -> list A -> Prop :=
| LNil : linked m None [] []
| LCons a x q ads xs : m a = Some (x, q) -> linked m q ads xs -> linked m (Some a) (a :: ads) (x :: xs).

(** Constraint row (b, a_1..a_n) means b + a.x >= 0. *)
Fixpoint dot (a x : list Z) : Z :=
  match a, x with c :: a', y :: x' => (c * y + dot a' x')%Z | _, _ => 0%Z end.
Definition satisfies (x : list Z) (row : list Z) : Prop :=
  match row with [] => True | b :: a => (0 <= b + dot a x)%Z end.
Definition feasible (rows : list (list Z)) (x : list Z) : Prop := Forall (satisfies x) rows.

(** The same for rational points. *)
Fixpoint qdot (a : list Z) (x : list Q) : Q :=
  match a, x with c :: a', y :: x' => (inject_Z c * y + qdot a' x')%Q | _, _ => 0%Q end.
Definition feasibleQ (rows : list (list Z)) (x : list Q) : Prop :=
  Forall (fun row => match row with [] => True | b :: a => (0 <= inject_Z b + qdot a x)%Q end) rows.
