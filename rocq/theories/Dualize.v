(** Model of the dualization of cones: dual.cpp:64-185 dualizeCone_with_cdd, dualizeCone and 230-278 computeDetAndFacetsOfSimplicialCone (det_and_facets of Piped.v),
    DualizationWith4ti2.cpp:33-97 with latte_4ti2.cpp:26-44, and latte_4ti2_zsolve.cpp:26-65, the system for zsolve.
    Simplified: an empty list is the null pointer; 4ti2's lattice_basis and RayAlgorithm are one function of the matrix, as in VertexCones.v; for cdd
    a function stands for the program and the files, whose result are the generators with the mark of those in the linearity part. *)
From Verif Require Import Common ZMat Hermite Det RatVec Util Piped VertexCones.
Open Scope Z_scope.

Record dcone := mkD { d_rays : list (list Z); d_facets : list (list Z); d_subspace : list (list Z); d_equalities : list (list Z); d_det : Z; d_dual_det : Z }.
Inductive dmethod := WithCdd | With4ti2.
Record dtools := mkDT { dt_method : dmethod; dt_cdd : list (list Z) -> nat -> list (bool * list Z); dt_rays : ray_algorithm }.
(** dual.cpp:159-161, 167-169; DualizationWith4ti2.cpp:93-95 *)
Definition swap_data (c : dcone) : dcone := mkD (d_facets c) (d_rays c) (d_equalities c) (d_subspace c) (d_dual_det c) (d_det c).
(** DualizationWith4ti2.cpp:64-78: the identity in front of the rays *)
Definition lifted (rays : list (list Z)) : list (list Z) :=
  let m := length rays in map (fun i => map (fun j => if Nat.eqb j i then 1 else 0) (seq 0 m) ++ nth i rays [])%list (seq 0 m).
(** DualizationWith4ti2.cpp:33-52: the last coordinates, put at the front one by one *)
Definition project (n m : nat) (vs : list (list Z)) : list (list Z) := rev (map (fun r => map (fun j => nth (m + j) r 0) (seq 0 n)) vs).
(** DualizationWith4ti2.cpp:54-97 *)
Definition with_4ti2 (F : ray_algorithm) (n : nat) (c : dcone) : outcome dcone :=
  match d_facets c, d_subspace c with
  | [], [] =>
      let m := length (d_rays c) in let '(rs, sub) := F (lifted (d_rays c)) (n + m)%nat (repeat true m ++ repeat false n)%list in
      Ok (swap_data (mkD (d_rays c) (project n m rs) [] (project n m sub) (d_det c) (d_dual_det c)))
  | _, _ => Err AssertFail
  end.
(** dual.cpp:64-141: all generators printed by cdd are rays, whether in the linearity part or not *)
Definition with_cdd (G : list (list Z) -> nat -> list (bool * list Z)) (n : nat) (c : dcone) : outcome dcone :=
  match d_subspace c with
  | [] => Ok (mkD (map snd (G (map (map Z.opp) (d_rays c)) n)) (d_rays c) [] (d_equalities c) (d_det c) (d_dual_det c))
  | _ => Err AssertFail
  end.
(** dual.cpp:147-185 *)
Definition dualize (T : dtools) (n : nat) (c : dcone) : outcome dcone :=
  match d_facets c with
  | _ :: _ => Ok (swap_data c)
  | [] =>
      if (length (d_rays c) =? n)%nat then
        bind (det_and_facets n (d_rays c)) (fun s => Ok (swap_data (mkD (d_rays c) (s_facets s) (d_subspace c) (d_equalities c) (s_det s) (s_dual_det s))))
      else match dt_method T with WithCdd => with_cdd (dt_cdd T) n c | With4ti2 => with_4ti2 (dt_rays T) n c end
  end.
(** latte_4ti2_zsolve.cpp:28-64: rows with the mark of those that are equations; the others are "at most 0" *)
Definition zsolve_system (n : nat) (facets equalities : list (list Z)) : outcome (list (bool * list Z)) :=
  let rows := mapM (fun f => mapM (fun k => zz_to_int (nth k f 0)) (seq 0 n)) in
  bind (rows facets) (fun fs => bind (rows equalities) (fun es => Ok (map (fun f => (false, f)) fs ++ map (fun e => (true, e)) es)%list)).
(** normalize.cpp:225-227, 265-266: dualize twice, and the system from facets and equations *)
Definition cone_system (T : dtools) (n : nat) (rays : list (list Z)) : outcome (list (bool * list Z)) :=
  bind (dualize T n (mkD rays [] [] [] 0 0)) (fun c => bind (dualize T n c) (fun c => zsolve_system n (d_facets c) (d_equalities c))).
