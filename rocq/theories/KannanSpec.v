(** Meaning of constraint matrices "b | -A": the row (b, a_1, ..., a_n) is the
    equation b + a.x = 0 or the inequality b + a.x >= 0. *)
From Verif Require Import Common Kannan.
Open Scope Z_scope.
Fixpoint dotp (a x : list Z) : Z :=
  match a, x with c :: a', y :: x' => c * y + dotp a' x' | _, _ => 0 end.
Definition row_value (row x : list Z) : Z := match row with [] => 0 | b :: a => b + dotp a x end.
Definition row_holds (x : list Z) (r : bool * list Z) : Prop :=
  if fst r then row_value (snd r) x = 0 else 0 <= row_value (snd r) x.
Definition solves (m : list (bool * list Z)) (x : list Z) : Prop := Forall (row_holds x) m.
Definition plain (r : krow) : bool * list Z := (lin r, coef r).
(** The slack values of a point: one for each aggregated inequality, in row order. *)
Definition slacks_of (rows : list krow) (x : list Z) : list Z :=
  map (fun r => row_value (coef r) x) (filter (fun r => agg r && negb (lin r)) rows).
(** What the program accepts: the selected rows have b >= 0 and A >= 0 (stored as -A). *)
Definition acceptable (r : krow) : Prop :=
  agg r = true -> 0 <= hd 0 (coef r) /\ Forall (fun c => c <= 0) (tl (coef r)).
(** Both maxima are positive: lambda > 0. *)
Definition has_positive_data (rows : list krow) : Prop :=
  (exists r, In r rows /\ agg r = true /\ 0 < hd 0 (coef r)) /\
  (exists r c, In r rows /\ agg r = true /\ In c (tl (coef r)) /\ c < 0).
(** Number of slack variables: aggregated inequalities. *)
Definition nslack (rows : list krow) : nat := length (filter (fun r => agg r && negb (lin r)) rows).
