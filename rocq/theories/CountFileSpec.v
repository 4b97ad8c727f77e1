(** What "count FILE" relies on and what it should print. *)
From Coq Require Import QArith.
From Verif Require Import Common Rational RationalSpec Text LatteText LatteTextSpec PipedSpec ConeSpec CountSpec PreprocSpec CheckEmpty CheckEmptySpec CddTextSpec.
Open Scope Z_scope.

(** The set lies in a box. *)
Definition bounded_set (S : list Q -> Prop) : Prop := exists B, forall x, S x -> Forall (fun q => (- B <= q /\ q <= B)%Q) x.
(** The file describes m and the keyword lines ks: integers, at most one line of each kind, linearity first. *)
Definition good_file (m : matrix) (ks : list keyword) : Prop :=
  plain_matrix m /\ integral m /\ (2 <= mx_cols m)%nat /\ mx_rows m <> [] /\ Forall (legal_keyword m) ks /\ usual_order ks /\
  forall l, In (Linearity l) ks -> (length l <= length (mx_rows m))%nat.
(** The integer points described by the file, each once. *)
Definition points_of_file (m : matrix) (ks : list keyword) (points : list (list Z)) : Prop :=
  NoDup points /\ forall x, In x points <-> described m ks (map inject_Z x).

(** cddlib's dd_MatrixCanonicalize: rows are dropped and turned into equations such that the
    solutions stay the same, the equations are independent, and every inequality that is left is violated
    by a point that satisfies all other rows. *)
Definition equation_rows (m : matrix) : list (list Z) := map (fun p => map num (snd p)) (filter (fun p => fst p) (List.combine (mx_lin m) (mx_rows m))).
Definition canonical_form (m m' : matrix) : Prop :=
  mx_cols m' = mx_cols m /\ length (mx_lin m') = length (mx_rows m') /\ incl (mx_rows m') (mx_rows m) /\
  (forall x, length x = (mx_cols m - 1)%nat -> (satisfies m' x <-> satisfies m x)) /\
  independent (mx_cols m - 1) (equation_rows m') /\
  forall i, (i < length (mx_rows m'))%nat -> nth i (mx_lin m') false = false ->
  exists x, length x = (mx_cols m - 1)%nat /\ (row_at m' i x < 0)%Q /\
  forall j, (j < length (mx_rows m'))%nat -> j <> i -> if nth j (mx_lin m') false then (row_at m' j x == 0)%Q else (0 <= row_at m' j x)%Q.

(** No direction but 0 stays in the solutions of the rows. *)
Definition no_escape (n : nat) (rows : list (list Z)) : Prop :=
  forall y, (forall c, In c rows -> (0 <= sumq n (fun k => y k * inject_Z (nth (S k) c 0%Z)))%Q) -> forall k, (k < n)%nat -> (y k == 0)%Q.
(** x is a convex combination of the points. *)
Definition in_hull (n : nat) (vs : list (nat -> Q)) (x : nat -> Q) : Prop :=
  exists a, (forall i, (i < length vs)%nat -> (0 <= a i)%Q) /\ (sumq (length vs) a == 1)%Q /\ forall k, (k < n)%nat -> (x k == sumq (length vs) (fun i => a i * nth i vs origin k))%Q.
(** The files that cdd returns for the rows: the vertices, each once and with first entry 1; their convex hull is the
    polyhedron; for every vertex a list of other vertices. *)
Definition cdd_reports (n : nat) (rows : list (list Z)) (files : text * text) : Prop :=
  exists table adj, ext_file (S n) table (fst files) /\ Forall (fun row => nth 0 row zero_rat = mkRat 1 1) table /\
  all_vertices n rows (map point_of table) /\ (forall x, in_polyhedron n rows x -> in_hull n (map point_of table) x) /\
  ((2 <= length table)%nat -> ead_file adj (snd files) /\ length adj = length table /\ forall i, ~ In (S i) (nth i adj [])).
