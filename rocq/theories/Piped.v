(** Model of computeDetAndFacetsOfSimplicialCone (code/latte/dual.cpp:224-278) and of the
    enumeration of the fundamental parallelepiped (code/latte/genFunction/piped.cpp:53-440).
    Vectors are lists of n integers.  NTL's inv(d, X, A) and determinant are [adj] and [det]
    (Det.v).  Pointers and memory management are not modelled; a facet or ray beyond the end
    of its list would be a NULL dereference: callers pass n of each (checked here). *)
From Verif Require Import Common ZMat Hermite Det RatVec IntComb Smith.
Open Scope Z_scope.

(** The fields of listCone involved (cone.h): determinant, dual_determinant, rays, facets,
    facet_divisors. *)
Record scone := mkCone { s_det : Z; s_dual_det : Z; s_rays : list (list Z); s_facets : list (list Z); s_divs : list Z }.

(** dual.cpp:262-276, one facet: cancel the gcd; (facet, dual determinant, divisor). *)
Definition cancel_facet (d : Z) (row : list Z) (dual : Z) : outcome (list Z * Z * Z) :=
  let g := fold_left Z.gcd row 0 in
  let change := negb (g =? 0) && negb (g =? 1) in
  let row' := if change then map (fun x => x / g) row else row in
  let dual' := if change then dual / g else dual in
  if g =? 0 then Err DivByZero
  else if Z.abs d mod g =? 0 then Ok (row', dual', Z.abs d / g) else Err AssertFail.
Fixpoint cancel_facets (d : Z) (rows : list (list Z)) (dual : Z) : outcome (list (list Z) * Z * list Z) :=
  match rows with
  | [] => Ok ([], dual, [])
  | r :: rs => bind (cancel_facet d r dual) (fun '(r', dual', q) =>
               bind (cancel_facets d rs dual') (fun '(rs', dual'', qs) => Ok (r' :: rs', dual'', q :: qs)))
  end.
(** dual.cpp:224-278; the cone has no facets yet (assertion of line 230). *)
Definition det_and_facets (n : nat) (rays : list (list Z)) : outcome scone :=
  if negb (length rays =? n)%nat then Err AssertFail
  else
    let A := ent rays in
    let d := det n A in
    if d =? 0 then Err AssertFail
    else
      let X := tab n (adj n A) in
      let F := map (fun i => map (fun j => - (if d <? 0 then - X j i else X j i)) (seq 0 n)) (seq 0 n) in
      bind (cancel_facets d F (det n (ent F))) (fun '(fs, dual, qs) => Ok (mkCone d dual rays fs qs)).

(** piped.h: the fields of PointsInParallelepipedGenerator. *)
Record pgen := mkGen { p_max : list Z; p_binv : zmat; p_beta : list Z; p_betamod : list Z; p_common : Z; p_scale : list Z; p_tau : zmat }.
Definition zdot (a b : list Z) : Z := zsum (length a) (fun k => nth k a 0 * nth k b 0).
(** piped.cpp:142-155: divide column j of U*C by the j-th diagonal entry, asserting remainder 0. *)
Definition scaled_columns (n : nat) (V D : zmat) : outcome zmat :=
  if existsb (fun j => D j j =? 0) (seq 0 n) then Err DivByZero
  else if forallb (fun i => forallb (fun j => V i j mod D j j =? 0) (seq 0 n)) (seq 0 n)
       then Ok (tab n (fun i j => V i j / D j j)) else Err AssertFail.
(** piped.cpp:108-157: the numbers n_j and B_inv, with SmithNormalForm = SmithNormalFormIlio
    (the default of params->smithform). *)
Definition basis (fuel : nat) (xg : Z -> Z -> Z * Z * Z) (n : nat) (c : scone) : outcome (list Z * zmat) :=
  let U : zmat := tab n (fun i j => ent (s_rays c) j i) in
  if Z.abs (s_det c) =? 1 then Ok (repeat 1 n, tab n (fun i j => s_det c * U i j))
  else bind (smith fuel xg n U) (fun '(D, _, C) =>
       bind (scaled_columns n (tab n (mmul n U C)) D) (fun W => Ok (map (fun j => D j j) (seq 0 n), W))).
(** piped.cpp:104-207, the constructor. *)
Definition generator (fuel : nat) (xg : Z -> Z -> Z * Z * Z) (n : nat) (c : scone) (v : rvec) : outcome pgen :=
  bind (basis fuel xg n c) (fun '(mx, W) =>
  bind (scale_to_integer v n) (fun '(_, w, s) =>
  if s =? 0 then Err DivByZero
  else if existsb (fun q => q =? 0) (s_divs c) then Err DivByZero
  else
    let beta := map (fun i => zdot w (nth i (s_facets c) []) / s) (seq 0 n) in
    let modd := map (fun i => nth i beta 0 mod nth i (s_divs c) 0) (seq 0 n) in
    let common := Z.abs (s_det c) in
    let sc := map (fun i => common / nth i (s_divs c) 0) (seq 0 n) in
    let tau := tab n (fun i j => zsum n (fun k => W k j * ent (s_facets c) i k) mod nth i (s_divs c) 0) in
    Ok (mkGen mx W beta modd common sc tau))).
(** piped.cpp:53-86 *)
Definition multiplier (n : nat) (c : scone) (g : pgen) (ks : list Z) (i : nat) : Z :=
  (nth i (p_betamod g) 0 - zsum n (fun j => p_tau g i j * nth j ks 0)) mod nth i (s_divs c) 0 - nth i (p_beta g) 0.
(** piped.cpp:234-253, 255-274 GeneratePoint *)
Definition generate_point (n : nat) (c : scone) (g : pgen) (ks : list Z) : list Z :=
  let ms := map (multiplier n c g ks) (seq 0 n) in
  map (fun k => zsum n (fun i => nth i ms 0 * nth i (p_scale g) 0 * ent (s_rays c) i k) / p_common g) (seq 0 n).
(** limits.h *)
Definition int_max : Z := 2147483647.
(** piped.cpp:215-232 GetMaxMultipliers_int, then IntCombEnum::decrementUpperBound. *)
Definition upper_bounds (mx : list Z) : outcome (list Z) :=
  if forallb (fun x => x <=? int_max) mx then Ok (map (fun x => x - 1) mx) else Err Exited.
(** The loop of piped.cpp:331-334 (and 434-438): all vectors until getNext returns NULL. *)
Fixpoint drain (fuel : nat) (s : ice) : outcome (list (list Z)) :=
  match fuel with
  | O => Err OutOfFuel
  | S f => bind (get_next s) (fun '(s1, r) =>
           match r with None => Ok [] | Some ks => bind (drain f s1) (fun l => Ok (ks :: l)) end)
  end.
(** piped.cpp:318-337 pointsInParallelepiped: the list is built by prepending. *)
Definition points (fuel : nat) (xg : Z -> Z -> Z * Z * Z) (n : nat) (c : scone) (v : rvec) : outcome (list (list Z)) :=
  bind (generator fuel xg n c v) (fun g =>
  bind (upper_bounds (p_max g)) (fun u =>
  bind (drain fuel (ice_new u)) (fun kss => Ok (rev (map (generate_point n c g) kss))))).
(** piped.cpp:367-400 *)
Definition point_scalar_product (n : nat) (c : scone) (g : pgen) (h : list Z) (ks : list Z) : outcome Z :=
  let sr := map (fun i => nth i (p_scale g) 0 * zdot h (nth i (s_rays c) [])) (seq 0 n) in
  let r := zsum n (fun i => multiplier n c g ks i * nth i sr 0) in
  if p_common g =? 0 then Err DivByZero else if r mod p_common g =? 0 then Ok (r / p_common g) else Err AssertFail.
Fixpoint mapM {A B} (f : A -> outcome B) (l : list A) : outcome (list B) :=
  match l with [] => Ok [] | x :: l' => bind (f x) (fun y => bind (mapM f l') (fun ys => Ok (y :: ys))) end.
(** piped.cpp:402-440 computeLatticePointsScalarProducts with no lattice points computed
    before; storing more than [index] products would be out of bounds, missing ones stay 0. *)
Definition scalar_products (fuel : nat) (xg : Z -> Z -> Z * Z * Z) (n : nat) (c : scone) (v : rvec) (h : list Z) : outcome (list Z) :=
  let index := Z.abs (s_det c) in
  if int_max <? index then Err Exited
  else bind (generator fuel xg n c v) (fun g =>
       bind (upper_bounds (p_max g)) (fun u =>
       bind (drain fuel (ice_new u)) (fun kss =>
       bind (mapM (point_scalar_product n c g h) kss) (fun l =>
       if index <? Z.of_nat (length l) then Err OutOfBounds else Ok (l ++ repeat 0 (Z.to_nat index - length l)))))).
