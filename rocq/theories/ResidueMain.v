(** Model of the ways to Residue: count when it keeps the decomposed cones (count.cpp:513-530, 660-666, barvinok/dec.cpp:60-97), and
    latte-maximize and latte-minimize, which compute the number of points before they search the optimum
    (maximize.cpp:464-480, minimize.cpp:464-484).
    Simplified: as in DigMain.v; count without equations, so that the cones are not projected up (count.cpp:537-544);
    the files of the generating function and of the cones are not written. *)
From Verif Require Import Common RatVec Piped Irrational Barvinok Count Dig DigMain ResidueList.
Open Scope Z_scope.

(** The fields of listCone that Residue reads: coefficient, rays, latticePoints (maximize.cpp:468 hands it a copy) *)
Definition cone_fields (c : dcone) : Z * list (list Z) * list (list Z) := (dc_coef c, dc_rays c, [dc_point c]).
(** count.cpp:517-530, 664 *)
Definition count_in_memory (P : params) (fuel : nat) (rnd : nat -> list Z) (n : nat) (rows : list (list Z)) (vs : list rvec) : outcome Z :=
  bind (unimodular_cones P n rows vs) (fun ds => residue fuel rnd n (map cone_fields ds)).
(** maximize.cpp:464-480: exit(0) when the number of points is 0 *)
Definition maximize_checked (P : params) (fuel : nat) (rnd rnd2 : nat -> list Z) (n : nat) (rows : list (list Z)) (vs : list rvec) (cost : list Z) : outcome (list Z * Z * list Z) :=
  bind (unimodular_cones P n rows vs) (fun ds =>
  bind (residue fuel rnd n (map cone_fields ds)) (fun k =>
  if k =? 0 then Err Exited else maximize fuel rnd2 ds rows cost n)).
(** minimize.cpp:464-484 *)
Definition minimize_checked (P : params) (fuel : nat) (rnd rnd2 : nat -> list Z) (n : nat) (rows : list (list Z)) (vs : list rvec) (cost : list Z) : outcome (list Z * Z * list Z) :=
  bind (unimodular_cones P n rows vs) (fun ds =>
  bind (residue fuel rnd n (map cone_fields ds)) (fun k =>
  if k =? 0 then Err Exited else minimize fuel rnd2 ds rows cost n)).
