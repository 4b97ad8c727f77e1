(** Solutions of linear programs and the set described by a matrix file. *)
From Coq Require Import QArith String.
From Verif Require Import Common Rational RationalSpec Text LatteText LatteTextSpec CheckEmpty.
Open Scope Z_scope.

(** b + a_1 x_1 + ... + a_n x_n for the row [b; a_1; ...; a_n]; for a shorter list x the missing coordinates are 0. *)
Fixpoint dot (a : list Z) (x : list Q) : Q := match a, x with c :: a', q :: x' => (inject_Z c * q + dot a' x')%Q | _, _ => 0%Q end.
Definition feasible (p : lp) (x : list Q) : Prop := length x = (lp_cols p - 1)%nat /\ forall row, In row (lp_rows p) -> (0 <= dot row (1%Q :: x))%Q.
(** A direction in which the objective grows and no constraint is left. *)
Definition improving (p : lp) (d : list Q) : Prop :=
  length d = (lp_cols p - 1)%nat /\ (forall row, In row (lp_rows p) -> (0 <= dot row (0%Q :: d))%Q) /\ (0 < dot (lp_objective p) d)%Q.
(** cdd's answer on the program p: a solution or a direction is reported if there is a
    solution; and if one is reported, there is one (it may be a direction although there is
    no solution). *)
Definition answers (cdd : lp -> bool) (p : lp) : Prop :=
  ((exists x, feasible p x) -> cdd p = true) /\ (cdd p = true -> (exists x, feasible p x) \/ exists d, improving p d).
(** Files of integers. *)
Definition integral (m : matrix) : Prop := Forall (Forall (fun q => den q = 1)) (mx_rows m).
(** The file: a matrix without linearity flags, then the keyword lines. *)
Definition file (m : matrix) (ks : list keyword) : text := (write_matrix m ++ flat_map show_keyword ks)%list.
Definition plain_matrix (m : matrix) : Prop := wf_matrix m /\ mx_lin m = repeat false (length (mx_rows m)) /\ mx_vrep m = false.
(** The points described. *)
Definition described (m : matrix) (ks : list keyword) (x : list Q) : Prop :=
  length x = (mx_cols m - 1)%nat /\ satisfies m x /\ Forall (fun k => stated m k x) ks.
(** At most one line of each kind, linearity first. *)
Inductive usual_order : list keyword -> Prop :=
| no_keywords : usual_order []
| one_keyword k : usual_order [k]
| both_keywords l l' : usual_order [Linearity l; Nonnegative l'].
(** No direction stays in the set. *)
Definition row_dir (m : matrix) (i : nat) (d : list Q) : Q := affine (nth i (mx_rows m) []) (0%Q :: d).
Definition no_direction (m : matrix) (ks : list keyword) : Prop :=
  forall d, length d = (mx_cols m - 1)%nat -> (forall i, (i < length (mx_rows m))%nat -> (0 <= row_dir m i d)%Q) ->
  Forall (fun k => match k with
    | Linearity l => Forall (fun i => (row_dir m (Z.to_nat (i - 1)) d == 0)%Q) l
    | Nonnegative l => Forall (fun i => (0 <= nth (Z.to_nat (i - 1)) d 0)%Q) l end) ks ->
  Forall (fun q => (q == 0)%Q) d.
