(** What is asked of 4ti2 for triangulating a cone, and when heights are linear. *)
From Coq Require Import QArith.
From Verif Require Import Common PipedSpec ConeSpec CountSpec TriangSpec VertexConesSpec Dualize Tri4ti2.
Open Scope Q_scope.

(** The heights are the values of a linear form at the rays. *)
Definition linear_heights (n : nat) (V : list (list Z)) (hs : list Z) : Prop :=
  exists y : nat -> Q, forall j, (j < length V)%nat -> inject_Z (nth j hs 0%Z) == pairing n y (nth j V []).
(** The rank does not grow with the row of heights exactly if the heights are linear. *)
Definition rank_contract (n : nat) (dep : list (list Z) -> list Z -> bool) : Prop :=
  forall V hs, Forall (fun r => length r = n) V -> length hs = length V -> (dep V hs = true <-> linear_heights n V hs).
(** For the matrices (I | W): if an answer comes, it is right in the sense of VertexConesSpec.v. *)
Definition oracle_contract (F : ray_oracle) : Prop :=
  forall n W answer, Forall (fun r => length r = n) W ->
  let A := Dualize.lifted W in let d := (n + length W)%nat in let s := (repeat true (length W) ++ repeat false n)%list in
  F A d s = Some answer -> ray_contract (fun _ _ _ => answer) A d s.
(** Prescribed heights are not negative. *)
Definition nonneg_heights (h : heights4) : Prop := match h with Prescribed special => forall s, In s special -> (0 <= snd s)%Z | _ => True end.
