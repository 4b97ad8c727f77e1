(** The integer combinations of a bound vector: all vectors v with 0 <= v_i <= u_i. *)
From Verif Require Import Common.
Open Scope Z_scope.
Definition in_box (u v : list Z) : Prop := Forall2 (fun ui vi => 0 <= vi <= ui) u v.
(** Number of such vectors: the product of u_i + 1. *)
Fixpoint box_size (u : list Z) : Z := match u with [] => 1 | x :: u' => (x + 1) * box_size u' end.
