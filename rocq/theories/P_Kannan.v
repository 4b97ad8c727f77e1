(** Property theorems about Kannan aggregation (C33). *)
From Verif Require Import Common Kannan KannanSpec KannanProofs.
Open Scope Z_scope.

(** C33.  For every matrix whose selected rows are acceptable, and in which a selected
    row has a positive right-hand side and one has a non-zero coefficient (or nothing
    is selected), the program produces a matrix of the announced width such that a
    non-negative integer point x extended by slack values s solves it exactly if x
    solves the original matrix and s are its slacks. *)
Theorem aggregation_keeps_nonnegative_solutions :
  forall rows n, Forall (fun r => length (coef r) = S n) rows -> Forall acceptable rows ->
  has_positive_data rows \/ filter agg rows = [] ->
  exists m, kannan rows (S n) = Ok m /\ Forall (fun r => length (snd r) = S n + nslack rows)%nat m /\
  forall x s, length x = n -> length s = nslack rows -> Forall (fun z => 0 <= z) x ->
  (solves m (x ++ s) <-> solves (map plain rows) x /\ s = slacks_of rows x).
Proof. exact kannan_ok. Qed.
Print Assumptions aggregation_keeps_nonnegative_solutions.

Theorem aggregation_rejects_negative_rows :
  forall rows n, Forall (fun r => length (coef r) = S n) rows -> ~ Forall acceptable rows ->
  kannan rows (S n) = Err Exited.
Proof. exact kannan_rejects. Qed.
Print Assumptions aggregation_rejects_negative_rows.

(** C33 does not hold for every accepted matrix: if all selected right-hand sides are 0
    the multiplier base is 0 and the aggregated equation is 0 = 0; and the program does
    not check that the variables are non-negative, without which new integer solutions
    appear. *)
Theorem aggregation_all_accepted_inputs_refuted :
  (exists rows m x, Forall acceptable rows /\ kannan rows 3 = Ok m /\ Forall (fun z => 0 <= z) x /\
     solves m x /\ ~ solves (map plain rows) x) /\
  (exists rows m x, Forall acceptable rows /\ has_positive_data rows /\ kannan rows 3 = Ok m /\
     solves m x /\ ~ solves (map plain rows) x).
Proof. exact (conj kannan_zero_rhs kannan_negative_points). Qed.
Print Assumptions aggregation_all_accepted_inputs_refuted.

(** 2x+y<=6, x+3y=5 aggregated, x,y>=0 kept. *)
Definition kannan_demo : list krow :=
  [mkRow false false [0; 1; 0]; mkRow true false [6; -2; -1]; mkRow true true [5; -1; -3]; mkRow false false [0; 0; 1]].
Example kannan_demo_hyp : Forall (fun r => length (coef r) = 3%nat) kannan_demo /\ Forall acceptable kannan_demo /\ has_positive_data kannan_demo.
Proof.
  split; [repeat constructor|]. split; [repeat constructor; intros; cbn in *; try discriminate; lia|].
  split; [exists (mkRow true false [6; -2; -1])|exists (mkRow true false [6; -2; -1]), (-2)]; cbn; repeat split; auto; lia.
Qed.
Example kannan_demo_run :
  match kannan kannan_demo 3 with
  | Ok m => map fst m = [false; false; false; true] /\
     map (fun r => row_value (snd r) ([2; 1] ++ [1])) m = [2; 1; 1; 0] /\ slacks_of kannan_demo [2; 1] = [1]
  | Err _ => False end.
Proof. vm_compute. repeat split. Qed.
