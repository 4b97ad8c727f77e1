(** Model of hilbert-from-rays, code/latte/normalize/normalize.cpp: insert_hilbert_basis_element (61-73), enumerate_simplicial_cone_with_latte
    (95-119), RecursiveNormalizer::ConsumeCone (138-145), cone_unimodular (147-161) and handle_cone (192-371); of normalize_main (560-820) the way from the
    rays through the initial triangulation (677-687) to the normalizer (740-747).
    Simplified: a cone is the list of its rays, its vertex is the origin; the files between the triangulation and the normalizer give back the
    cones; no reduction test (the default).  zsolve, the triangulation, and the numbers of facets and equations that 4ti2 or cdd finds for a cone that has not as many rays as
    variables are functions, the first two of the number of the call as well, as they depend on time and on random numbers; None from
    zsolve is the time limit.  What was written before an error is left out. *)
From Verif Require Import Common ZMat Hermite Det RatVec Util Piped.
Open Scope Z_scope.

Record nparams := mkNparams { z_dim : nat; z_max_facets : Z; z_max_det : Z; z_initial : bool; z_fuel : nat; z_xg : Z -> Z -> Z * Z * Z;
  z_facets : list (list Z) -> Z; z_equations : list (list Z) -> Z;
  z_zsolve : nat -> list (list Z) -> outcome (option (list (list Z))); z_triang : nat -> list (list Z) -> outcome (list (list (list Z))) }.
Definition same_vector (x y : list Z) : bool := if list_eq_dec Z.eq_dec x y then true else false.
(** 61-73 *)
Definition insert (known : list (list Z)) (v : list Z) : list (list Z) := if existsb (same_vector v) known then known else (known ++ [v])%list.
(** 147-161 *)
Definition unimodular (n : nat) (t : list (list Z)) : bool := Z.abs (det n (ent t)) =? 1.
(** 104-117 *)
Definition enumerate (P : nparams) (c : scone) (known : list (list Z)) : outcome (list (list Z)) :=
  bind (points (z_fuel P) (z_xg P) (z_dim P) c (rv_zero (z_dim P))) (fun ps =>
  bind (mapM (mapM zz_to_int) ps) (fun vs => Ok (fold_left insert vs known))).
(** 225-228 with dual.cpp:148-190: the dualized cone, its number of facets and the number of its equations *)
Definition dualized (P : nparams) (t : list (list Z)) : outcome (scone * Z * Z) :=
  if (length t =? z_dim P)%nat then bind (det_and_facets (z_dim P) t) (fun c => Ok (c, Z.of_nat (length (s_facets c)), 0))
  else Ok (mkCone 0 0 t [] [], z_facets P t, z_equations P t).
(** 192-371; the state is the list of the vectors written and the number of calls *)
Fixpoint handle (fuel : nat) (P : nparams) (t : list (list Z)) (st : list (list Z) * nat) : outcome (list (list Z) * nat) :=
  match fuel with
  | O => Err OutOfFuel
  | S f =>
      let subdivide (st : list (list Z) * nat) :=
        bind (z_triang P (snd st) t) (fun cs =>
        (fix each (cs : list (list (list Z))) st := match cs with [] => Ok st | c :: cs' => bind (handle f P c st) (each cs') end) cs (fst st, S (snd st))) in
      match t with
      | [] => Err NullDeref
      | _ =>
          if (length t =? z_dim P)%nat && unimodular (z_dim P) t then Ok st else
          bind (dualized P t) (fun '(c, facets, equations) =>
          if Z.abs (s_det c) =? 1 then Ok st
          else if (length t =? z_dim P)%nat && (Z.abs (s_det c) <? z_max_det P) then bind (enumerate P c (fst st)) (fun known => Ok (known, snd st))
          else if facets <? z_max_facets P then
            bind (z_zsolve P (snd st) t) (fun o =>
            match o with
            | None => subdivide (fst st, S (snd st))
            | Some homs => if Z.of_nat (length homs) <? Z.of_nat (z_dim P) - equations then Err Exited else Ok (fold_left insert homs (fst st), S (snd st))
            end)
          else subdivide st)
      end
  end.
Fixpoint handle_all (fuel : nat) (P : nparams) (cs : list (list (list Z))) (st : list (list Z) * nat) : outcome (list (list Z) * nat) :=
  match cs with [] => Ok st | c :: cs' => bind (handle fuel P c st) (handle_all fuel P cs') end.
(** the vectors in the .hil file, in the order of the file *)
Definition hilbert_from_rays (fuel : nat) (P : nparams) (rays : list (list Z)) : outcome (list (list Z)) :=
  bind (if z_initial P then z_triang P 0 rays else Ok [rays]) (fun cs => bind (handle_all fuel P cs ([], 1%nat)) (fun st => Ok (fst st))).
