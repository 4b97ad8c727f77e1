(** Model of triangulation/BoundaryTriangulation.cpp: an interior vector that completes a
    triangulation of the boundary of a cone and avoids singularities.
    Simplifications: a cone is its list of rays.  NTL's determinant and inv(d, X, A) are exact
    (Det.v).  The reduction NTL::LLL is a parameter: the rank, the transformation matrix and
    the new matrix.  Messages are not modelled; ints are unbounded.  compute_triangulation_of_boundary (cddlib
    and 4ti2, see Hull.v and Tri4ti2.v) and the two dualizations of complete_boundary_triangulation
    (Dualize.v), which restore the rays, are not modelled here. *)
From Verif Require Import Common ZMat Hermite Det IntComb Piped.
Open Scope Z_scope.

(** BoundaryTriangulation.cpp:79-81, the row of the unit vector. *)
Definition unit_row (n j : nat) : list Z := map (fun k => if (k =? j)%nat then 1 else 0) (seq 0 n).
(** BoundaryTriangulation.cpp:76-82, the loop over unit vectors. *)
Fixpoint complete_rays (n : nat) (rays : list (list Z)) (js : list nat) : option (list (list Z)) :=
  match js with
  | [] => None
  | j :: js' => let M := (rays ++ [unit_row n j])%list in if det n (ent M) =? 0 then complete_rays n rays js' else Some M
  end.
(** BoundaryTriangulation.cpp:61-105 alpha_basis: the column of alpha and the columns of F. *)
Definition alpha_basis (n : nat) (rays : list (list Z)) : outcome (list Z * list (list Z)) :=
  if negb (S (length rays) =? n)%nat then Err AssertFail else
  match complete_rays n rays (seq 0 n) with
  | None => Err AssertFail
  | Some M =>
      let inverse := adj n (ent M) in
      Ok (map (fun s => inverse s (n - 1)%nat) (seq 0 n),
          map (fun s => map (fun l => inverse s (n - 1)%nat * inverse (n - 1)%nat l - inverse s l * inverse (n - 1)%nat (n - 1)%nat) (seq 0 (n - 1))) (seq 0 n))
  end.
(** BoundaryTriangulation.cpp:107-128 *)
Definition singularity_avoiding (num_cones n : nat) (alpha f : list Z) : bool :=
  forallb (fun k => (nth k alpha 0 =? 0) || forallb (fun l => negb (nth (k * (n - 1) + l) f 0 =? 0)) (seq 0 (n - 1))) (seq 0 num_cones).
(** The product of a vector and a matrix with n rows. *)
Definition row_times (n width : nat) (x : list Z) (M : list (list Z)) : list Z := map (fun j => zsum n (fun i => nth i x 0 * ent M i j)) (seq 0 width).
(** BoundaryTriangulation.cpp:187-209, the inner loop; None when the enumeration is over. *)
Fixpoint try_combinations (fuel n nc : nat) (alpha UF U : list (list Z)) (max_coeff : Z) (s : ice) : outcome (option (list Z * list Z)) :=
  match fuel with
  | O => Err OutOfFuel
  | S f =>
      bind (get_next s) (fun '(s', next) =>
      match next with
      | None => Ok None
      | Some v =>
          let multi := map (fun x => x - max_coeff) v in
          let alpha_comb := row_times n nc multi alpha in
          let F_comb := row_times n (nc * (n - 1)) multi UF in
          if existsb (fun x => Z.abs x =? max_coeff) multi && singularity_avoiding nc n alpha_comb F_comb
          then Ok (Some (row_times n n multi U, alpha_comb))
          else try_combinations f n nc alpha UF U max_coeff s'
      end)
  end.
(** BoundaryTriangulation.cpp:179-210, the outer loop. *)
Fixpoint try_coefficients (fuel fuel' n nc : nat) (alpha UF U : list (list Z)) (max_coeff : Z) : outcome (list Z * list Z) :=
  match fuel with
  | O => Err OutOfFuel
  | S f =>
      bind (try_combinations fuel' n nc alpha UF U max_coeff (ice_new (repeat (2 * max_coeff) n))) (fun r =>
      match r with Some p => Ok p | None => try_coefficients f fuel' n nc alpha UF U (max_coeff + 1) end)
  end.
(** BoundaryTriangulation.cpp:141-143, the matrices alpha and F. *)
Definition alpha_matrix (n : nat) (bs : list (list Z * list (list Z))) : list (list Z) := map (fun s => map (fun b => nth s (fst b) 0) bs) (seq 0 n).
Definition F_matrix (n : nat) (bs : list (list Z * list (list Z))) : list (list Z) := map (fun s => flat_map (fun b => nth s (snd b) []) bs) (seq 0 n).
(** BoundaryTriangulation.cpp:130-213 construct_interior_vector: the vector and det_vector. *)
Definition interior_vector (LLL : list (list Z) -> nat * list (list Z) * list (list Z)) (fuel fuel' n : nat) (cones : list (list (list Z))) : outcome (list Z * list Z) :=
  let nc := length cones in
  bind (mapM (alpha_basis n) cones) (fun bs =>
  let '(rank, U, alpha) := LLL (alpha_matrix n bs) in
  if negb (rank =? n)%nat then Err AssertFail else
  try_coefficients fuel fuel' n nc alpha (map (fun u => row_times n (nc * (n - 1)) u (F_matrix n bs)) U) U 1).
(** BoundaryTriangulation.cpp:267-284, the loop over the cones; acc is resulting_triangulation. *)
Fixpoint completed (w : list Z) (dets : list Z) (cones acc : list (list (list Z))) : list (list (list Z)) :=
  match cones with
  | [] => acc
  | c :: cones' => completed w (tl dets) cones' (if nth 0 dets 0 =? 0 then acc else (w :: c) :: acc)
  end.
(** BoundaryTriangulation.cpp:254-304 without the dualizations. *)
Definition complete_boundary (LLL : list (list Z) -> nat * list (list Z) * list (list Z)) (fuel fuel' n : nat) (cones : list (list (list Z))) : outcome (list (list (list Z))) :=
  bind (interior_vector LLL fuel fuel' n cones) (fun '(w, dets) => Ok (completed w dets cones [])).
