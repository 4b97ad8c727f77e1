(** What a matrix file with keywords says. *)
From Coq Require Import QArith String.
From Verif Require Import Common Rational RationalSpec Text LatteText.
Open Scope Z_scope.

(** A matrix that can be written: rows of the stated width in lowest terms, one linearity
    flag per row, sizes that are C++ ints. *)
Definition wf_matrix (m : matrix) : Prop :=
  Forall (fun row => length row = mx_cols m /\ Forall lowest_terms row) (mx_rows m) /\
  length (mx_lin m) = length (mx_rows m) /\
  Z.of_nat (length (mx_rows m)) <= 2147483647 /\ Z.of_nat (mx_cols m) < 2147483647.

Inductive keyword := Linearity (l : list Z) | Nonnegative (l : list Z).
Definition indices (k : keyword) : list Z := match k with Linearity l => l | Nonnegative l => l end.
(** The line of a keyword: the word, the number of indices, the indices. *)
Definition show_keyword (k : keyword) : text :=
  (lit (match k with Linearity _ => "linearity " | Nonnegative _ => "nonnegative " end) ++
   show_nat (length (indices k)) ++ " "%char :: show_entries (map show_Z (indices k)) ++ [newline])%list.

(** The matrix meant: flags set, unit rows appended. *)
Definition apply_keyword (m : matrix) (k : keyword) : matrix :=
  match k with
  | Linearity l =>
      mkMatrix (mx_rows m) (mx_cols m)
        (map (fun p => snd p || existsb (Z.eqb (Z.of_nat (fst p))) l) (combine (seq 1 (length (mx_lin m))) (mx_lin m))) (mx_vrep m)
  | Nonnegative l =>
      mkMatrix (mx_rows m ++ map (fun i => map (fun j => if Z.of_nat j =? i then mkRat 1 1 else mkRat 0 1) (seq 0 (mx_cols m))) l)
        (mx_cols m) (mx_lin m ++ map (fun _ => false) l) (mx_vrep m)
  end.
(** Indices that make sense: for linearity existing rows, for nonnegative variables
    (column 0 is the right-hand side). *)
Definition legal_keyword (m : matrix) (k : keyword) : Prop :=
  Z.of_nat (length (indices k)) <= 2147483647 /\ Forall (fun i => i <= 2147483647) (indices k) /\
  match k with
  | Linearity l => Forall (fun i => 1 <= i <= Z.of_nat (length (mx_rows m))) l
  | Nonnegative l => Forall (fun i => 1 <= i < Z.of_nat (mx_cols m)) l
  end.

(** The system b + a.x >= 0 (= 0 for rows of the linearity set) a matrix stands for. *)
Fixpoint affine (row : list rat) (x : list Q) : Q :=
  match row, x with
  | a :: row', q :: x' => (value a * q + affine row' x')%Q
  | _, _ => 0%Q
  end.
Definition row_at (m : matrix) (i : nat) (x : list Q) : Q := affine (nth i (mx_rows m) []) (1%Q :: x).
(** Keywords one after the other; indices may refer to rows added before. *)
Fixpoint legal_keywords (m : matrix) (ks : list keyword) : Prop :=
  match ks with [] => True | k :: ks' => legal_keyword m k /\ legal_keywords (apply_keyword m k) ks' end.
Definition satisfies (m : matrix) (x : list Q) : Prop :=
  forall i, (i < length (mx_rows m))%nat ->
    if nth i (mx_lin m) false then (row_at m i x == 0)%Q else (0 <= row_at m i x)%Q.

(** The constraints a keyword states about a point (the rows being those of [m]). *)
Definition stated (m : matrix) (k : keyword) (x : list Q) : Prop :=
  match k with
  | Linearity l => Forall (fun i => (row_at m (Z.to_nat (i - 1)) x == 0)%Q) l
  | Nonnegative l => Forall (fun i => (0 <= nth (Z.to_nat (i - 1)) x 0)%Q) l
  end.

(** The word "nonnegative" is not allowed in lists of vertices and rays. *)
Definition vrep_ok (vrep : bool) (k : keyword) : Prop := match k with Nonnegative _ => vrep = false | _ => True end.
