(** Model of the irrationalisation of simplicial cones (code/latte/Irrational.cpp) and of
    createFacetMatrix / createFacetMatrix2 (code/latte/convert.cpp:61-101).
    Not modelled: the LP variant computeConeStabilityCube_general (for cones whose facets
    were not computed by computeDetAndFacetsOfSimplicialCone); the floating point estimate of
    the depth of the decomposition tree (Irrational.cpp:217-239) is the parameter [depth];
    overflow of the int exponents; memory management. *)
From Verif Require Import Common ZMat Hermite Det RatVec Piped.
Open Scope Z_scope.

(** convert.cpp:61-80 (dt = determinant) and 82-101 (dt = |determinant|): facet i times
    dt / divisor i, asserting remainder 0. *)
Fixpoint facet_rows (dt : Z) (facets : list (list Z)) (divs : list Z) : outcome (list (list Z)) :=
  match facets, divs with
  | [], _ => Ok []
  | _ :: _, [] => Err OutOfBounds
  | f :: fs, q :: qs =>
      if q =? 0 then Err DivByZero
      else if dt mod q =? 0 then bind (facet_rows dt fs qs) (fun r => Ok (map (fun x => x * (dt / q)) f :: r))
      else Err AssertFail
  end.
Definition facet_matrix (c : scone) : outcome (list (list Z)) := facet_rows (s_det c) (s_facets c) (s_divs c).
Definition facet_matrix2 (c : scone) : outcome (list (list Z)) := facet_rows (Z.abs (s_det c)) (s_facets c) (s_divs c).

(** Irrational.cpp:383-408 assertConesIntegerEquivalent; v1 is the cone's vertex. *)
Definition integer_equivalent (n : nat) (c : scone) (v1 v2 : rvec) : outcome unit :=
  bind (scale_to_integer v1 n) (fun '(_, w1, s1) =>
  bind (scale_to_integer v2 n) (fun '(_, w2, s2) =>
  if (s1 =? 0) || (s2 =? 0) then Err DivByZero
  else if forallb (fun f => zdot w1 f / s1 =? zdot w2 f / s2) (s_facets c) then Ok tt else Err AssertFail)).
(** Irrational.cpp:351-370 isConeIrrational; latte_ntl.cpp:27-33 InnerProductModulo. *)
Definition is_irrational (n : nat) (c : scone) (v : rvec) : outcome bool :=
  bind (scale_to_integer v n) (fun '(_, w, s) =>
  if s =? 0 then Err DivByZero else Ok (forallb (fun f => negb (zdot w f mod s =? 0)) (s_facets c))).

(** The loops calling set_entry(i, ns[i], d) for i = 0, 1, ... *)
Fixpoint set_loop (v : rvec) (ns : list Z) (i : nat) (d : Z) : outcome rvec :=
  match ns with [] => Ok v | x :: ns' => bind (set_entry v i x d false) (fun v' => set_loop v' ns' (S i) d) end.
Definition norm1 (f : list Z) : Z := fold_right (fun x a => Z.abs x + a) 0 f.
Definition max_norm1 (fs : list (list Z)) : Z := fold_left (fun m f => if m <? norm1 f then norm1 f else m) fs 0.
(** Irrational.cpp:35-99 computeConeStabilityCube_simplicial: centre, numerator and
    denominator of the length. *)
Definition stability_cube_simplicial (n : nat) (c : scone) (v : rvec) : outcome (rvec * Z * Z) :=
  bind (scale_to_integer v n) (fun '(_, w, s) =>
  bind (facet_matrix2 c) (fun dual =>
  if s =? 0 then Err DivByZero
  else
    let l := map (fun f => zdot f w / s) dual in
    let l2 := map (fun x => x * 2 + 1) l in
    let center := map (fun k => - zsum n (fun i => ent (s_rays c) i k * nth i l2 0)) (seq 0 n) in
    bind (set_loop (rv_zero n) center 0 (2 * Z.abs (s_det c))) (fun cv =>
    bind (integer_equivalent n c v cv) (fun _ => Ok (cv, 1, 2 * max_norm1 dual))))).
(** NTL NumBits *)
Definition num_bits (m : Z) : Z := if m =? 0 then 0 else Z.log2 (Z.abs m) + 1.
(** Irrational.cpp:157-179 simplifyConeStabilityCube.  Entry i of the centre is read before
    it is overwritten and the entries are independent, so the new ones are computed first. *)
Definition simplify_cube (n : nat) (cv : rvec) (ln ld : Z) : outcome (rvec * Z * Z) :=
  if ln =? 0 then Err DivByZero
  else
    let k := num_bits (ld / ln + 1) in
    if existsb (fun d => d =? 0) (firstn n (denominator cv)) then Err DivByZero
    else
      let ns := map (fun i => Z.shiftl (nth i (enumerator cv) 0) (k + 1) / nth i (denominator cv) 1) (seq 0 n) in
      bind (set_loop cv ns 0 (2 ^ (k + 1))) (fun cv' => Ok (cv', 1, 2 ^ k)).
(** Irrational.cpp:181-209, the simplicial case (the facets are computed already; the order
    and divisors are ours). *)
Definition stability_cube (n : nat) (c : scone) (v : rvec) : outcome (rvec * Z * Z) :=
  if (length (s_divs c) =? n)%nat
  then bind (stability_cube_simplicial n c v) (fun '(cv, ln, ld) => simplify_cube n cv ln ld)
  else Err AssertFail.
(** Irrational.cpp:276-284 *)
Definition max_entry (rays : list (list Z)) : Z :=
  fold_left (fun m r => fold_left (fun m x => if m <? Z.abs x then Z.abs x else m) r m) rays 0.
(** Irrational.cpp:289-295 *)
Definition irr_bits (depth n : nat) (c : scone) : Z :=
  num_bits (2 * (Z.of_nat n ^ Z.of_nat depth * max_entry (s_rays c)) ^ Z.of_nat (n - 1)).
(** Irrational.cpp:241-341 irrationalizeCone: the new vertex. *)
Definition irrationalize (depth n : nat) (c : scone) (v : rvec) : outcome rvec :=
  bind (stability_cube n c v) (fun '(cv, ln, ld) =>
  bind (scale_to_integer cv n) (fun '(_, cw, cs) =>
  let k := irr_bits depth n c in
  let nums := map (fun i => Z.shiftl ln (Z.of_nat (n - 1 - i) * (k + 2))) (seq 0 n) in
  let den := Z.shiftl ld (Z.of_nat n * (k + 2) - (k + 1) + 1) in
  bind (lcm_code cs den) (fun common =>
  if (cs =? 0) || (den =? 0) then Err DivByZero
  else
    let nv := rv_scalar (map (fun i => nth i cw 0 * (common / cs) + nth i nums 0 * (common / den)) (seq 0 n)) common in
    bind (integer_equivalent n c v v) (fun _ =>
    bind (integer_equivalent n c v nv) (fun _ =>
    bind (is_irrational n c nv) (fun b => if b then Ok nv else Err AssertFail)))))).
