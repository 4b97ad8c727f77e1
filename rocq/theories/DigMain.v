(** Model of the way of latte-maximize and latte-minimize from the vertices to the optimum: the decomposition into unimodular cones
    (maximize.cpp:404-412, minimize.cpp:406-414, barvinok/dec.cpp:36-97), the lattice point of every cone
    (maximize.cpp:427-444) and SolveIP (maximize.cpp:480, minimize.cpp:483-484).
    Simplified: the vertices are a parameter, as in Count.v, and the facets of the vertex cones are the tight inequalities (the drivers
    let cddlib compute them from the rays); Residue, which only makes the program stop before SolveIP when
    there is no integer point (maximize.cpp:469-474), is left out, and so are the projections ProjectingUp and the output. *)
From Verif Require Import Common RatVec Piped Irrational Barvinok Count Dig.
Open Scope Z_scope.

(** dec.cpp:48-56 Collecting_Single_Cone_Parameters::ConsumeCone puts the cone in front of the list; maximize.cpp:435
    sets its lattice points, of which ConeInfo uses the first. *)
Definition collect (P : params) (n : nat) (w : list Z) (v : rvec) (d : bcone) (acc : list dcone) : outcome (option (list dcone)) :=
  bind (points (q_fuel2 P) (q_xg P) n (b_cone d) v) (fun ps =>
  match ps with [] => Err NullDeref | p :: _ => Ok (Some (mkDcone (b_coef d) (s_rays (b_cone d)) p :: acc)) end).
(** dec.cpp:60-97 decomposeCones with dualize; status 1 always *)
Definition unimodular_cones (P : params) (n : nat) (rows : list (list Z)) (vs : list rvec) : outcome (list dcone) :=
  bind (dual_cones n rows vs) (fun cones =>
  bind (cones_loop P n (fun _ => 1) (collect P n) cones []) (fun o => match o with None => Err AssertFail | Some ds => Ok ds end)).
Definition latte_maximize (P : params) (fuel : nat) (rnd : nat -> list Z) (n : nat) (rows : list (list Z)) (vs : list rvec) (cost : list Z) : outcome (list Z * Z * list Z) :=
  bind (unimodular_cones P n rows vs) (fun ds => maximize fuel rnd ds rows cost n).
Definition latte_minimize (P : params) (fuel : nat) (rnd : nat -> list Z) (n : nat) (rows : list (list Z)) (vs : list rvec) (cost : list Z) : outcome (list Z * Z * list Z) :=
  bind (unimodular_cones P n rows vs) (fun ds => minimize fuel rnd ds rows cost n).
