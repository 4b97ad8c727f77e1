(** Model of the program "count FILE" from the text of the input file to the number printed:
    ReadPolyhedron.cpp:592-698 (read_polyhedron_hairy, PolyhedronFromHrepMatrix), 699-800
    (polyhedronRedundancyCheck, projectOutVariables), 267-330 (matrixToVerticesOrCones),
    latte_cddlib.cpp:100-122, latte_gmp.cpp:73-79, preprocess.cpp:213-222 and
    count.cpp:340-620, composed of the models of the parts (CheckEmpty.v, LatteText.v,
    Preproc.v, CddText.v, Count.v, Residue.v, Triang.v, Omega.v).

    Vertices are computed with the program cdd (the default when 4ti2 is not there, or
    --vertex-cones=cdd).  cddlib's dd_MatrixCanonicalize is a function on matrices.  The rows that
    preprocessProblem returns have an unused entry at the end, which is cut off here: the code
    reads only numOfVars + 1 entries of them.  A polyhedron whose answer is known early is
    reported by writing the number and exit(0); so both are [Ok (Some (number, cones))]; the second
    component is the number of cones counted with, 0 for an early answer.  Ending
    without an answer is [Ok None]. *)
From Coq Require Import QArith.
From Verif Require Import Common RatVec Preproc Piped Irrational Barvinok Count Residue Triang Omega P_Full Rational Text LatteText CheckEmpty CddText.
Open Scope Z_scope.

(** latte_gmp.cpp:73-79 *)
Definition entry_ZZ (q : rat) : outcome Z := if den q =? 1 then Ok (num q) else Err AssertFail.
(** latte_cddlib.cpp:100-122: equations and inequalities, each in the order of the matrix. *)
Definition split_rows (m : matrix) : outcome (list (list Z) * list (list Z)) :=
  bind (mapM (mapM entry_ZZ) (mx_rows m)) (fun rows =>
  let flagged := List.combine (mx_lin m) rows in
  Ok (map snd (filter (fun p => fst p) flagged), map snd (filter (fun p => negb (fst p)) flagged))).
(** preprocess.cpp:213-222 *)
Definition dilate_list (dil : Z) (rows : list (list Z)) : list (list Z) := map (fun r => match r with [] => [] | b :: a => dil * b :: a end) rows.

Inductive projected := Early (n : Z) | System (numOfVars : nat) (rows : list (list Z)).
(** ReadPolyhedron.cpp:740-800; exit(1) for "unbounded" is [Err Exited]. *)
Definition project_out (fuel : nat) (dil : Z) (m : matrix) : outcome projected :=
  let n := (mx_cols m - 1)%nat in
  bind (split_rows m) (fun '(eqs, ineqs) =>
  match eqs with
  | [] => Ok (System n (dilate_list dil ineqs))
  | _ => bind (preprocess fuel eqs ineqs n dil) (fun r =>
         match r with
         | Count0 => Ok (Early 0)
         | Count1 => Ok (Early 1)
         | Unbounded => Err Exited
         | Reduced _ basis rows => Ok (System (length basis) (map (firstn (S (length basis))) rows))
         end)
  end).

(** The programs and libraries called before counting: cdd's linear programming (CheckEmpty),
    dd_MatrixCanonicalize, and the program cdd. *)
Record tools := mkTools { u_lp : lp -> bool; u_canon : matrix -> matrix; u_cdd : text -> text * text }.
(** ReadPolyhedron.cpp:649-653, 664, 668-697 up to the vertices. *)
Definition read_system (T : tools) (fuel : nat) (dil : Z) (s : text) : outcome projected :=
  bind (check_empty (u_lp T) s) (fun _ => bind (read_matrix s false false false) (fun m => project_out fuel dil (u_canon T m))).

Section Counting.
Context (K : libraries) (max_height max_det : Z) (tri_fuel : nat) (h : heights) (pos : list (list Z) -> nat).
(** count.cpp:355-376, 416-620: tight inequalities at the vertices, triangulation of every
    dual cone, and the sum over the cones, by exponential or (the default) polynomial substitution. *)
Definition count_vertices (exponential : bool) (f1 f2 : nat) (guesses : list (list Z)) (n : nat) (rows : list (list Z)) (vs : list rvec) : outcome (Z * Z) :=
  bind (dual_cones n rows vs) (fun cones =>
  bind (mapM (fun c => triangulation K max_height tri_fuel h pos n (snd (fst c))) cones) (fun _ =>
  let P := latte K max_height max_det tri_fuel h pos n f1 f2 in
  if exponential then bind (count P n guesses rows vs) (fun z => Ok (z, 0)) else count_residue P n guesses rows vs)).
Definition count_file (T : tools) (exponential : bool) (dil : Z) (f0 f1 f2 : nat) (guesses : list (list Z)) (s : text) : outcome (option (Z * Z)) :=
  bind (read_system T f0 dil s) (fun p =>
  match p with
  | Early k => Ok (Some (k, 0))
  | System n rows =>
      bind (compute_vertex_cones (u_cdd T) rows n) (fun a =>
      match a with
      | Stopped None => Ok None
      | Stopped (Some k) => Ok (Some (k, 0))
      | Cones cs => bind (count_vertices exponential f1 f2 guesses n rows (map fst cs)) (fun r => Ok (Some r))
      end)
  end).
End Counting.
