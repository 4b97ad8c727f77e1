(** What a file of subcones says. *)
From Verif Require Import Common Text LatteText Subcones.
Open Scope Z_scope.

(** The text t begins with the numbers l, separated by white space and each followed by white space; u is what
    follows them. *)
Definition blanks (t : text) : Prop := Forall (fun c => is_space c = true) t.
Definition spaced (t : text) : Prop := exists c t', t = c :: t' /\ is_space c = true.
Inductive numbers : list Z -> text -> text -> Prop :=
| no_numbers t : numbers [] t t
| more_numbers b z l t u : blanks b -> spaced t -> numbers l t u -> numbers (z :: l) (b ++ show_Z z ++ t) u.
Definition bit (b : bool) : Z := if b then 1 else 0.

(** Nothing follows, or something that is no number. *)
Definition no_number (t : text) : Prop := blanks t \/ exists b c t', blanks b /\ t = (b ++ c :: t')%list /\ is_space c = false /\ is_digit c = false /\ c <> "-"%char /\ c <> "+"%char.

(** The rays marked in the row, each with its position in the master cone. *)
Definition selects (master : list ray) (row : list bool) (rs : list ray) : Prop :=
  NoDup rs /\ forall r, In r rs <-> exists i, (i < length master)%nat /\ nth i row false = true /\ r = mkRay (vector (nth i master (mkRay [] 0))) (Z.of_nat i).
(** The cones listed by the rows, numbered from 0. *)
Definition listed {V} (master : cone V) (rows : list (list bool)) (cones : list (cone V)) : Prop :=
  length cones = length rows /\ forall i c, nth_error cones i = Some c -> vertex c = vertex master /\ cone_hint c = Z.of_nat i /\ selects (rays master) (nth i rows []) (rays c).
(** The same rays, as vectors. *)
Definition same_rays {V W} (a : cone V) (b : cone W) : Prop := forall v, In v (map vector (rays a)) <-> In v (map vector (rays b)).

(** The history of a file: rows written and counts brought up to date. *)
Inductive op := WriteVector (v : list bool) | UpdateNumVectors.
Fixpoint run (w : writer) (ops : list op) : outcome writer :=
  match ops with
  | [] => Ok w
  | WriteVector v :: l => bind (write_vector w v) (fun w' => run w' l)
  | UpdateNumVectors :: l => run (update_num_vectors w) l
  end.
Fixpoint written (ops : list op) : list (list bool) :=
  match ops with [] => [] | WriteVector v :: l => v :: written l | UpdateNumVectors :: l => written l end.
(** The number of rows written before the last update. *)
Fixpoint counted_from (n : nat) (last : option nat) (ops : list op) : option nat :=
  match ops with [] => last | WriteVector _ :: l => counted_from (S n) last l | UpdateNumVectors :: l => counted_from n (Some n) l end.
Definition counted (ops : list op) : option nat := counted_from 0 None ops.
