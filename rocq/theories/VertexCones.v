(** Model of the vertices with 4ti2 (the default of count when 4ti2 is there):
    VertexConesWith4ti2.cpp:34-170, latte_4ti2.cpp:26-44, cone_consumer.cpp:35-46, and of "count
    FILE" with them (ReadPolyhedron.cpp:307-310, count.cpp:355-376, 502-620).

    4ti2's lattice_basis and RayAlgorithm::compute are one function: it gets the matrix, the number of
    columns and the columns that have to be nonnegative, and returns the rays and the subspace. *)
From Coq Require Import QArith.
From Verif Require Import Common RatVec Preproc Piped Irrational Barvinok Count Residue Triang Omega P_Full Rational Text LatteText CheckEmpty CddText CountFile.
Open Scope Z_scope.

Definition ray_algorithm := list (list Z) -> nat -> list bool -> list (list Z) * list (list Z).
(** VertexConesWith4ti2.cpp:45-64, latte_4ti2.cpp:26-44: minus the identity in front of the inequalities. *)
Definition slack_matrix (rows : list (list Z)) : list (list Z) :=
  let m := length rows in map (fun i => map (fun j => if Nat.eqb j i then -1 else 0) (seq 0 m) ++ nth i rows [])%list (seq 0 m).
(** VertexConesWith4ti2.cpp:46-47, 57-64: slacks and the homogenizing coordinate. *)
Definition sign_restricted (m n : nat) : list bool := (repeat true (S m) ++ repeat false n)%list.
(** VertexConesWith4ti2.cpp:129-137: the greatest common divisor is cancelled; 0 and 1 are left alone. *)
Definition cancel_gcd (v : list Z) : list Z :=
  let g := fold_left Z.gcd v 0 in if negb (g =? 0) && negb (g =? 1) then map (fun x => x / g) v else v.
(** VertexConesWith4ti2.cpp:118-139: facets from the slacks that are zero, put at the front. *)
Fixpoint incident (n : nat) (slacks : list Z) (rows : list (list Z)) (acc : list (list Z)) : list (list Z) :=
  match slacks, rows with
  | s :: slacks', r :: rows' => incident n slacks' rows' (if s =? 0 then cancel_gcd (map (fun k => - nth (S k) r 0) (seq 0 n)) :: acc else acc)
  | _, _ => acc
  end.
(** VertexConesWith4ti2.cpp:98-153: a ray of the homogenization; None for a ray of the polyhedron. *)
Definition cone_of_ray (n : nat) (rows : list (list Z)) (r : list Z) : option (rvec * list (list Z)) :=
  let m := length rows in
  let d := nth m r 0 in
  if d =? 0 then None else Some (rv_scalar (map (fun j => nth (m + 1 + j) r 0) (seq 0 n)) d, incident n (firstn m r) rows []).
(** The loop and the consumer that collects at the front. *)
Fixpoint collect (n : nat) (rows : list (list Z)) (rs : list (list Z)) (acc : list (rvec * list (list Z))) (unbounded : bool) : list (rvec * list (list Z)) * bool :=
  match rs with
  | [] => (acc, unbounded)
  | r :: rs' => match cone_of_ray n rows r with None => collect n rows rs' acc true | Some c => collect n rows rs' (c :: acc) unbounded end
  end.
(** VertexConesWith4ti2.cpp:34-170 *)
Definition vertex_cones (F : ray_algorithm) (rows : list (list Z)) (n : nat) : outcome (list (rvec * list (list Z)) * bool) :=
  if negb (forallb (fun r => (length r =? S n)%nat) rows) then Err OutOfBounds
  else let m := length rows in
       let '(rs, subspace) := F (slack_matrix rows) (1 + n + m)%nat (sign_restricted m n) in
       match subspace with [] => Ok (collect n rows rs [] false) | _ => Err AssertFail end.

Section Counting.
Context (K : libraries) (max_height max_det : Z) (tri_fuel : nat) (h : heights) (pos : list (list Z) -> nat).
(** count.cpp:355-376, 502-620: the facets are there already; they are triangulated. *)
Definition count_facets (exponential : bool) (f1 f2 : nat) (guesses : list (list Z)) (n : nat) (cones : list (rvec * list (list Z))) : outcome (Z * Z) :=
  bind (mapM (fun c => triangulation K max_height tri_fuel h pos n (snd c)) cones) (fun _ =>
  let P := latte K max_height max_det tri_fuel h pos n f1 f2 in
  let cs := map (fun c => (fst c, snd c, [])) cones in
  if exponential then bind (count_cones P n guesses cs) (fun z => Ok (z, 0)) else count_residue_cones P n guesses cs).
(** "count FILE"; an unbounded polyhedron is an exception (count.cpp:510-514, 550-554). *)
Definition count_file_4ti2 (T : tools) (F : ray_algorithm) (exponential : bool) (dil : Z) (f0 f1 f2 : nat) (guesses : list (list Z)) (s : text) : outcome (Z * Z) :=
  bind (read_system T f0 dil s) (fun p =>
  match p with
  | Early k => Ok (k, 0)
  | System n rows =>
      bind (vertex_cones F rows n) (fun '(cones, unbounded) => if unbounded : bool then Err Thrown else count_facets exponential f1 f2 guesses n cones)
  end).
End Counting.
