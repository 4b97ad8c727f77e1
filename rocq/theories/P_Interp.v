(** Property theorems about polynomial interpolation (C19). *)
From Coq Require Import QArith.
From Verif Require Import Common Interp InterpSpec InterpProofs2.
Open Scope Q_scope.

(** C19.  d+1 points with pairwise different abscissae: solve returns the coefficients of
    the unique polynomial of degree at most d through all of them. *)
Theorem interpolation_exact : forall d pts, length pts = (d + 1)%nat -> distinct (map fst pts) ->
  exists t p, add_points (new_interp d) pts = Ok t /\ solve t = Ok p /\ length p = (d + 1)%nat /\
    (forall x f, In (x, f) pts -> peval p x == f) /\
    forall q, length q = (d + 1)%nat -> (forall x f, In (x, f) pts -> peval q x == f) -> same_poly p q.
Proof. exact solve_distinct. Qed.
Print Assumptions interpolation_exact.
(** Through (1,2), (0,1), (-2, 5): 1 + x^2; the
    second sample starts with the abscissa 0 and needs one. *)
Example interpolation_sample :
  (match add_points (new_interp 2) [(1, 2); (0, 1); (-2 # 1, 5)] with Ok t => match solve t with Ok p => Some (map Qred p) | _ => None end | _ => None end) = Some [1; 0; 1] /\
  (match add_points (new_interp 3) [(0, 7); (1, 6); (2, 11); (1 # 2, 49 # 8)] with Ok t => match solve t with Ok p => Some (map Qred p) | _ => None end | _ => None end) = Some [7; -2 # 1; 0; 1] /\
  distinct (map fst [(0, 7); (1, 6); (2, 11); (1 # 2, 49 # 8)]).
Proof. split; [vm_compute; reflexivity|]. split; [vm_compute; reflexivity|].
  cbn [map fst distinct]. refine (conj _ (conj _ (conj _ (conj _ I)))); intros y Hy; repeat (destruct Hy as [<- | Hy]; [intros X; discriminate X|]); destruct Hy. Qed.

(** With a repeated abscissa GE reads past the last row (currentRow > rowSize should be
    >=), for every such full point set: the failure is not reported. *)
Theorem repeated_abscissa_refuted : forall d pts, length pts = (d + 1)%nat -> ~ distinct (map fst pts) ->
  exists t, add_points (new_interp d) pts = Ok t /\ solve t = Err OutOfBounds.
Proof. exact solve_repeated. Qed.
Print Assumptions repeated_abscissa_refuted.
Example repeated_sample : ~ distinct (map fst [(3, 2); (3, 4)]).
Proof. intros [H _]. apply (H 3); [now left|reflexivity]. Qed.

(** More than d+1 points: the program exits. *)
Theorem surplus_point_exits : forall d pts, (d + 1 < length pts)%nat -> add_points (new_interp d) pts = Err Exited.
Proof. exact too_many_points. Qed.
Print Assumptions surplus_point_exits.
Example surplus_sample : add_points (new_interp 1) [(0, 1); (1, 1); (2, 1)] = Err Exited.
Proof. vm_compute. reflexivity. Qed.

(** evaluatePoly computes the value of a non-empty coefficient list. *)
Theorem evaluation_exact : forall x c l, exists v, evaluate x (c :: l) = Ok v /\ v == peval (c :: l) x.
Proof. exact evaluate_ok. Qed.
Print Assumptions evaluation_exact.
Example evaluation_sample : match evaluate 2 [1; 5; 3] with Ok v => Qred v = 23 | _ => False end.
Proof. vm_compute. reflexivity. Qed.
