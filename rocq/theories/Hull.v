(** Model of the integer hull of latte-maximize and latte-minimize (maximize.cpp:459-463, minimize.cpp:462-466): IntegralHull
    (IntegralHull.cpp:850-924, IntegralHull_Flag = 1 as in line 41) with GetHRepresentation (567-627), GetVertices (629-696, flag = 0),
    CheckVertices (698-727) and Push_Vector (729-764).
    Simplified: SolveIP is a function of the number of the call and the cost ([digging] is the model of Dig.v); the program lrs is a
    function from points to the rows (b, a) of the inequalities b + a x >= 0 that it prints between "begin" and "end", the constants b being
    ints; GetHRepresentation does not read the line "linearity" of lrs.  Calculate_Polytope_Width (766-848) only sets a global variable that is never read and is left out. *)
From Verif Require Import Common Dig.
Open Scope Z_scope.

Record tools := mkTools { t_solve : nat -> list Z -> outcome (list Z); t_cost : nat -> list Z; t_lrs : list (list Z) -> list (list Z) }.
(** the same vector; vec_ZZ's operator== *)
Definition same (x y : list Z) : bool := if list_eq_dec Z.eq_dec x y then true else false.
(** 641-694: SolveIP for every cost, from call number k on *)
Fixpoint solve_costs (T : tools) (k : nat) (costs : list (list Z)) : outcome (list (list Z)) :=
  match costs with
  | [] => Ok []
  | c :: costs' => bind (t_solve T k c) (fun v => bind (solve_costs T (S k) costs') (fun vs => Ok (v :: vs)))
  end.
(** 639-672: random costs if there is no hyperplane, the normals otherwise *)
Definition costs_for (T : tools) (n k : nat) (hyper : list (list Z)) : list (list Z) :=
  match hyper with [] => map (t_cost T) (seq k n) | _ => hyper end.
Definition get_vertices (T : tools) (n k : nat) (hyper : list (list Z)) : outcome (list (list Z)) := solve_costs T k (costs_for T n k hyper).
(** 608-617: the constant is dropped, the rest negated, zero vectors left out *)
Definition normals (rows : list (list Z)) : list (list Z) :=
  filter (fun h => negb (forallb (Z.eqb 0) h)) (map (fun row => map Z.opp (tl row)) rows).
(** 709-721: counter *)
Definition equal_pairs (vertices new : list (list Z)) : nat :=
  fold_right (fun v s => (length (filter (same v) new) + s)%nat) 0%nat vertices.
(** 723-726 *)
Definition check_vertices (vertices new : list (list Z)) : bool := (equal_pairs vertices new <? length new)%nat.
(** 729-764: line 753 reads ArrayVec[i], i < len2, if the inner loop runs; ArrayVec has len1 entries.  The flag is not used. *)
Definition push_vector (head tail : list (list Z)) : outcome (list (list Z)) :=
  if (0 <? length head)%nat && (length head <? length tail)%nat then Err OutOfBounds else Ok (head ++ tail).
(** 862-867: r more times n random costs *)
Fixpoint start (T : tools) (n k r : nat) (vertices : list (list Z)) : outcome (nat * list (list Z)) :=
  match r with
  | O => Ok (k, vertices)
  | S r' => bind (get_vertices T n k []) (fun new => bind (push_vector vertices new) (fun vertices' => start T n (k + n)%nat r' vertices'))
  end.
(** 872-883 *)
Fixpoint hull_loop (fuel : nat) (T : tools) (n k : nat) (vertices : list (list Z)) : outcome (list (list Z)) :=
  match fuel with
  | O => Err OutOfFuel
  | S f =>
      let hyper := normals (t_lrs T vertices) in
      bind (get_vertices T n k hyper) (fun new =>
      bind (push_vector vertices new) (fun vertices' =>
      if check_vertices vertices new then hull_loop f T n (k + length (costs_for T n k hyper))%nat vertices' else Ok vertices'))
  end.
Definition integral_hull (fuel : nat) (T : tools) (n : nat) : outcome (list (list Z)) :=
  bind (get_vertices T n 0 []) (fun vertices =>
  bind (start T n n n vertices) (fun '(k, vertices') => hull_loop fuel T n k vertices')).
(** The SolveIP of Dig.v as a solver; rnd k are the random numbers of call k. *)
Definition digging (fuel : nat) (rnd : nat -> nat -> list Z) (cones : list dcone) (matrix : list (list Z)) (n k : nat) (cost : list Z) : outcome (list Z) :=
  bind (solve_ip fuel (rnd k) cones matrix cost n) (fun '(x, _, _) => Ok x).
