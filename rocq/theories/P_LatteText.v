(** Property theorems about LattE-style matrix files (C37). *)
From Coq Require Import QArith String.
From Verif Require Import Common Rational RationalSpec Text LatteText LatteTextSpec LatteTextProofs LatteTextProofs2.
Open Scope Z_scope.

(** C37.  What is written is read back: entries, width, linearity set and kind. *)
Theorem matrix_write_read : forall m, wf_matrix m -> read_matrix (write_matrix m) (mx_vrep m) false false = Ok m.
Proof.
  intros m W. pose proof (write_read_keywords m [] W I (Forall_nil _)) as E. cbn [flat_map fold_left] in E.
  rewrite app_nil_r in E. exact E.
Qed.
Print Assumptions matrix_write_read.

(** The unit square with x = 1 as an equation: b + a.x >= 0. *)
Definition square : matrix :=
  mkMatrix [[mkRat 1 2; mkRat (-1) 1; mkRat 0 1]; [mkRat 1 1; mkRat 0 1; mkRat (-1) 1]; [mkRat 3 1; mkRat (-2) 3; mkRat (-1) 1]] 3 [true; false; true] false.
Example square_ok : wf_matrix square /\
  read_matrix (write_matrix square) false false false = Ok square /\
  write_matrix square =
    (lit "3 3" ++ newline :: lit "1/2 -1 0 " ++ newline :: lit "1 0 -1 " ++ newline :: lit "3 -2/3 -1 " ++ newline :: lit "linearity 2 1 3 " ++ [newline])%list.
Proof.
  split; [|vm_compute; split; reflexivity].
  split; [|split; [reflexivity|vm_compute; split; [discriminate|reflexivity]]].
  repeat constructor; vm_compute; reflexivity.
Qed.

(** C37.  Keyword lines behind the matrix add exactly the constraints they state: the
    file is read, and the points of the set described are those of the matrix that also
    satisfy the stated equations and sign conditions. *)
Theorem keywords_add_stated_constraints : forall m ks x, wf_matrix m -> Forall (legal_keyword m) ks ->
  Forall (vrep_ok (mx_vrep m)) ks -> length x = (mx_cols m - 1)%nat ->
  exists m', read_matrix (write_matrix m ++ flat_map show_keyword ks) (mx_vrep m) false false = Ok m' /\
    mx_cols m' = mx_cols m /\ mx_vrep m' = mx_vrep m /\
    (satisfies m' x <-> satisfies m x /\ Forall (fun k => stated m k x) ks).
Proof.
  intros m ks x W L V Lx. destruct (keywords_meaning x ks m (proj1 (proj2 W)) Lx L) as (A&B).
  exists (fold_left apply_keyword ks m). split; [apply write_read_keywords; assumption|]. split; [|split; [|exact B]].
  - clear. revert m. induction ks as [|k ks IH]; intros m; [reflexivity|]. cbn [fold_left]. rewrite IH. apply apply_rows_le.
  - clear. revert m. induction ks as [|k ks IH]; intros m; [reflexivity|]. cbn [fold_left]. rewrite IH. apply apply_vrep.
Qed.
Print Assumptions keywords_add_stated_constraints.

(** C37.  The same as data: flags of the named rows set, unit rows appended in order,
    also when a keyword names rows added by an earlier one. *)
Theorem keywords_exact : forall m ks, wf_matrix m -> legal_keywords m ks -> Forall (vrep_ok (mx_vrep m)) ks ->
  read_matrix (write_matrix m ++ flat_map show_keyword ks) (mx_vrep m) false false = Ok (fold_left apply_keyword ks m).
Proof. exact write_read_keywords. Qed.
Print Assumptions keywords_exact.
Example keywords_sample : forall x y,
  Forall (legal_keyword square) [Nonnegative [1; 2]; Linearity [2]] /\
  Forall (vrep_ok false) [Nonnegative [1; 2]; Linearity [2]] /\
  (forall m', read_matrix (write_matrix square ++ flat_map show_keyword [Nonnegative [1; 2]; Linearity [2]]) false false false = Ok m' ->
     length (mx_rows m') = 5%nat /\ mx_lin m' = [true; true; true; false; false]) /\
  (stated square (Nonnegative [1; 2]) [x; y] <-> (0 <= x /\ 0 <= y)%Q) /\
  (stated square (Linearity [2]) [x; y] <-> (1 - y == 0)%Q).
Proof.
  intros x y.
  split; [repeat constructor; vm_compute; congruence|]. split; [repeat constructor|]. split.
  { intros m' E. vm_compute in E. inversion E. split; reflexivity. }
  split.
  - cbn. split; [intros H; inversion H as [|? ? A B]; inversion B as [|? ? C D]; split; assumption|intros (A&B); repeat constructor; assumption].
  - assert (E : (row_at square 1 [x; y] == 1 - y)%Q).
    { unfold row_at, square. cbn [nth mx_rows affine].
      change (value (mkRat 1 1)) with 1%Q. change (value (mkRat 0 1)) with 0%Q. change (value (mkRat (-1) 1)) with (-1)%Q. ring. }
    change (stated square (Linearity [2]) [x; y]) with (Forall (fun i => (row_at square (Z.to_nat (i - 1)) [x; y] == 0)%Q) [2]).
    split; [intros H; pose proof (Forall_inv H) as A; cbv beta in A; rewrite <- E; exact A|].
    intros H. constructor; [|constructor]. change (row_at square 1 [x; y] == 0)%Q. rewrite E. exact H.
Qed.

(** C37 fails for the command-line option "nonnegative": on every file of a matrix of
    inequalities with at least one column the reader writes behind the last column. *)
Theorem nonnegative_option_refuted : forall m, wf_matrix m -> mx_cols m <> O -> mx_vrep m = false ->
  read_matrix (write_matrix m) false false true = Err OutOfBounds.
Proof. exact option_nonnegative_fails. Qed.
Print Assumptions nonnegative_option_refuted.
Example nonnegative_option_sample : wf_matrix square /\ read_matrix (write_matrix square) false false true = Err OutOfBounds.
Proof. split; [apply square_ok|vm_compute; reflexivity]. Qed.

(** C37 fails for the aggregation program, which reads standard input as if it had asked
    for homogenization: the matrix gets a zero column in front. *)
Theorem aggregation_column_refuted :
  exists m m', wf_matrix m /\ aggregation_read (write_matrix m) = Ok m' /\ m' <> m /\
    mx_cols m' = S (mx_cols m) /\ mx_rows m' = map (cons (mkRat 0 1)) (mx_rows m).
Proof.
  exists square. eexists. split; [apply square_ok|]. split; [vm_compute; reflexivity|]. repeat split. discriminate.
Qed.
Print Assumptions aggregation_column_refuted.

(** Fractions are taken as they stand: a file with 2/4 gives an entry that is not the one
    written for 1/2, although it stands for the same number; so reading then writing
    need not reproduce the matrix entries in lowest terms. *)
Theorem unreduced_entry_refuted :
  exists m, read_matrix (lit "1 1 2/4") false false false = Ok m /\ mx_rows m = [[mkRat 2 4]] /\ ~ wf_matrix m.
Proof.
  eexists. split; [vm_compute; reflexivity|]. split; [reflexivity|]. intros (W&_).
  destruct (Forall_inv W) as (_&F). destruct (Forall_inv F) as (_&G). vm_compute in G. discriminate.
Qed.
Print Assumptions unreduced_entry_refuted.
