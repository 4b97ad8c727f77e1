(** Property theorems about the enumerator of integer combinations (C25). *)
From Verif Require Import Common IntComb IntCombSpec IntCombProofs.
Open Scope Z_scope.

(** C25.  For every vector of non-negative bounds of positive length, successive calls
    of getNext return every vector of the box exactly once (the zero vector last), and
    from then on NULL for ever. *)
Theorem enumerator_visits_every_combination_once :
  forall u, (0 < length u)%nat -> Forall (fun x => 0 <= x) u -> forall extra,
  exists s' vs, get_many (Z.to_nat (box_size u) + extra) (ice_new u) = Ok (s', map Some vs ++ repeat None extra) /\
    NoDup vs /\ (forall v, In v vs <-> in_box u v) /\ length vs = Z.to_nat (box_size u) /\
    last vs [] = repeat 0 (length u).
Proof. exact enum_ok. Qed.
Print Assumptions enumerator_visits_every_combination_once.

(** With no columns the enumerator is finished at once: not even the empty combination
    is returned. *)
Theorem enumerator_without_columns :
  forall k, get_many k (ice_new []) = Ok (ice_new [], repeat None k).
Proof. exact enum_empty. Qed.
Print Assumptions enumerator_without_columns.

(** Non-negativity is needed: with a negative last bound no number of calls ever
    returns NULL. *)
Theorem enumerator_negative_bound_never_ends :
  forall u k p q, (0 < length u)%nat -> length p = length u -> Forall (fun x => 0 <= x) p ->
  nth (length u - 1) u 0 < 0 ->
  forall s rs, get_many k (mkIce u p q (Z.of_nat (length u) - 1)) = Ok (s, rs) -> ~ In None rs.
Proof. exact carry_free_run. Qed.
Print Assumptions enumerator_negative_bound_never_ends.

Example enumerator_demo :
  match get_many 8 (ice_new [1; 0; 2]) with
  | Ok (_, rs) => rs = [Some [0;0;1]; Some [0;0;2]; Some [1;0;0]; Some [1;0;1]; Some [1;0;2]; Some [0;0;0]; None; None]
  | Err _ => False end.
Proof. vm_compute. reflexivity. Qed.
Example enumerator_negative_demo :
  match get_many 3 (ice_new [1; -1]) with Ok (_, rs) => rs = [Some [0;1]; Some [0;2]; Some [0;3]] | Err _ => False end.
Proof. vm_compute. reflexivity. Qed.
