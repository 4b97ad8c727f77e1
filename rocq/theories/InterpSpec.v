(** Polynomials over Q as coefficient lists, lowest degree first. *)
From Coq Require Import QArith.
From Verif Require Import Common.
Open Scope Q_scope.
Fixpoint peval (p : list Q) (x : Q) : Q := match p with [] => 0 | c :: p' => c + x * peval p' x end.
(** Equal coefficients. *)
Definition same_poly (p q : list Q) : Prop := Forall2 Qeq p q.
(** Pairwise different abscissae / a repeated one. *)
Fixpoint distinct (l : list Q) : Prop :=
  match l with [] => True | x :: l' => (forall y, In y l' -> ~ x == y) /\ distinct l' end.
