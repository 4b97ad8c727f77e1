(** Property theorems about the Hermite reduction and its uses: C31 (ihermite), C45
    (elimination of equations), C61 (lattice basis), C62 (Bezout vector). *)
From Coq Require Import Permutation.
From Verif Require Import Common KnapsackSpec ZMat Det Hermite HermiteSpec HermiteProofs2 HermiteProofs3 Preproc PreprocSpec PreprocProofs.
Open Scope Z_scope.

(** C31.  For every matrix with n rows and m columns ihermite ends, and its result is a
    unimodular row transformation of the input with the column exchanges mirrored in rhs. *)
Theorem hermite_reduction_correct : forall n m S rhs, is_mat S n m -> (m <= length rhs)%nat ->
  exists fuel rank S' U rhs', hermite_result n m S rhs rank S' U rhs' /\
    forall f, (fuel <= f)%nat -> ihermite f S rhs m n = Ok (rank, S', U, rhs').
Proof. exact ihermite_ok. Qed.
Print Assumptions hermite_reduction_correct.
Example hermite_sample :
  ihermite 50 [[0;1;2;3;4];[2;3;4;5;6];[4;5;6;7;8];[6;7;8;9;10]] [1;2;3;4;5] 5 4 =
  Ok (2%nat, [[2;3;4;5;6];[0;1;2;3;4];[0;0;0;0;0];[0;0;0;0;0]], [[0;1;0;0];[1;0;0;0];[2;-3;0;1];[1;-2;1;0]], [1;2;3;4;5]) /\
  is_mat [[0;1;2;3;4];[2;3;4;5;6];[4;5;6;7;8];[6;7;8;9;10]] 4 5.
Proof. split; [vm_compute; reflexivity|]. split; [reflexivity|repeat constructor]. Qed.

(** C61.  The columns returned by findLatticeBasis are a basis of {x : f divides alpha.x}:
    every such x, and no other, is an integer combination of them, in one way only. *)
Theorem lattice_basis_correct : forall alpha f, alpha <> [] -> f <> 0 -> exists fuel B, let n := length alpha in
  (forall k, (fuel <= k)%nat -> find_lattice_basis k alpha f = Ok B) /\ is_mat B n n /\
  (forall x, (f | dotp alpha x) <-> exists y, forall i, (i < n)%nat -> x i = combination B y i) /\
  (forall y, (forall i, (i < n)%nat -> combination B y i = 0) -> forall k, (k < n)%nat -> y k = 0).
Proof. exact lattice_basis_ok. Qed.
Print Assumptions lattice_basis_correct.
Example lattice_basis_sample : find_lattice_basis 50 [6;10;15] 4 = Ok [[4;4;-4];[-5;-3;4];[5;0;-2]].
Proof. vm_compute. reflexivity. Qed.

(** C62.  findVertex solves alpha.v + t f = 1 whenever the numbers have gcd 1. *)
Theorem vertex_is_bezout : forall alpha f, gcd_list (alpha ++ [f]) = 1 -> exists fuel v,
  (forall k, (fuel <= k)%nat -> find_vertex k alpha f = Ok v) /\ length v = length alpha /\
  exists t, dotp alpha (fun i => nth i v 0) + t * f = 1.
Proof. exact vertex_ok. Qed.
Print Assumptions vertex_is_bezout.
Example vertex_sample : find_vertex 50 [6;10;15] 7 = Ok [-1;0;0] /\ gcd_list ([6;10;15] ++ [7]) = 1.
Proof. split; vm_compute; reflexivity. Qed.

(** C45, linearly independent equations and at least one inequality: either the reduced
    problem corresponds to the original one, or the program reports zero lattice points and
    one of these holds: the equations have no integer solution; no solution satisfies the
    inequalities; every solution satisfies them. *)
Theorem elimination_partial : forall eqs ineqs n t, ineqs <> [] -> independent n eqs ->
  exists fuel res, (forall f, (fuel <= f)%nat -> preprocess f eqs ineqs n t = Ok res) /\
  match res with
  | Reduced p b rows => corresponds n t eqs ineqs p b rows
  | Count0 => (forall x, ~ sat_eqs n 1 eqs x) \/ (forall x, sat_eqs n t eqs x -> ~ sat_ineqs n t ineqs x) \/ (forall x, sat_eqs n t eqs x -> sat_ineqs n t ineqs x)
  | _ => False
  end.
Proof. exact preprocess_ok. Qed.
Print Assumptions elimination_partial.
Example elimination_sample :
  preprocess 50 [[6;-1;-1;-1];[1;-1;1;0]] [[0;1;0;0];[0;0;1;0];[0;0;0;1]] 3 1 = Ok (Reduced [1;0;5] [[1;1;-2]] [[1;1;0];[0;1;0];[5;-2;0]]) /\
  independent 3 [[6;-1;-1;-1];[1;-1;1;0]].
Proof.
  split; [vm_compute; reflexivity|]. intros c H i Hi. pose proof (H 0%nat ltac:(lia)) as H0. pose proof (H 1%nat ltac:(lia)) as H1. cbn in H0, H1.
  destruct i as [|[|i]]; [lia|lia|cbn in Hi; lia].
Qed.

(** C45, as many independent equations as variables and no inequality. *)
Theorem unique_point_counted : forall fuel eqs n t, length eqs = n -> independent n eqs ->
  (preprocess fuel eqs [] n t = Ok Count1 /\ exists x, sat_eqs n 1 eqs x /\ forall x', sat_eqs n 1 eqs x' -> forall i, (i < n)%nat -> x' i = x i) \/
  (preprocess fuel eqs [] n t = Ok Count0 /\ forall x, ~ sat_eqs n 1 eqs x).
Proof. exact solve_point_ok. Qed.
Print Assumptions unique_point_counted.
Example unique_point_sample : preprocess 50 [[1;-1;0];[4;0;-2]] [] 2 1 = Ok Count1 /\ preprocess 50 [[1;-1;0];[3;0;-2]] [] 2 1 = Ok Count0.
Proof. split; vm_compute; reflexivity. Qed.

(** C45 fails: (a) x = 1 with x <= 2 has one point, zero are reported;
    (b) the 2-fold dilation of 2x = 1, 0 <= x, 0 <= y <= 1 has integer points, zero are
    reported; (c) 2x = 1 stated twice has no integer point, yet a reduced problem with
    integer points is produced; (d) more equations than variables read past the matrix. *)
Theorem elimination_refuted :
  (preprocess 50 [[1;-1]] [[2;-1]] 1 1 = Ok Count0 /\ sat_eqs 1 1 [[1;-1]] (fun _ => 1) /\ sat_ineqs 1 1 [[2;-1]] (fun _ => 1)) /\
  (preprocess 50 [[1;-2;0]] [[0;1;0];[0;0;1];[1;0;-1]] 2 2 = Ok Count0 /\ sat_eqs 2 2 [[1;-2;0]] (fun _ => 1) /\ sat_ineqs 2 2 [[0;1;0];[0;0;1];[1;0;-1]] (fun _ => 1)) /\
  ((forall x, ~ sat_eqs 3 1 [[1;-2;0;0];[1;-2;0;0]] x) /\
   exists p b rows y, preprocess 50 [[1;-2;0;0];[1;-2;0;0]] [[0;1;0;0];[0;0;1;0];[1;0;-1;0]] 3 1 = Ok (Reduced p b rows) /\ sat_ineqs (length b) 1 rows y) /\
  preprocess 50 [[1;-1];[1;-1]] [[2;-1]] 1 1 = Err OutOfBounds.
Proof.
  refine (conj (conj _ (conj _ _)) (conj (conj _ (conj _ _)) (conj (conj _ _) _))); try (vm_compute; reflexivity).
  - intros e [<-|[]]. reflexivity.
  - intros e [<-|[]]. vm_compute. discriminate.
  - intros e [<-|[]]. reflexivity.
  - intros e H. repeat destruct H as [<-|H]; try (vm_compute; discriminate). destruct H.
  - intros x H. specialize (H [1;-2;0;0] (or_introl eq_refl)). unfold row_value in H. cbn [zsum nth Nat.add] in H. lia.
  - eexists. eexists. eexists. exists (fun _ => 0). split; [vm_compute; reflexivity|].
    intros e H. repeat destruct H as [<-|H]; try (vm_compute; discriminate). destruct H.
Qed.
Print Assumptions elimination_refuted.
