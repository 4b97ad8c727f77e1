(** Model of the valuations of a polytope: volume and integrals
    (code/latte/valuation/PolytopeValuation.cpp:18-491, 640-730, 835-912, 1083-1281,
    1390-1451).  ZZ is Z; int is Z or nat without overflow.  A list of cones is a list
    (NULL is []).  triangulateCone is the parameter [T]; it returns new cones that share
    nothing with its argument.  Asserts are active.  latticeInverse is NULL and the
    dimension is numOfVars, as after the constructor.  Filling the cache of a vertex
    (scaleRationalVectorToInteger) is not recorded: it has no visible effect (C05). *)
From Verif Require Import Common Rational RatVec Trie Integ ZMat Det Perturb.
Open Scope Z_scope.

(** cone.h:49-69: the fields of listCone that are used here. *)
Record vcone := mkVC { vc_vertex : rvec; vc_rays : list (list Z); vc_coef : Z }.
(** PolytopeValuation.h: numOfVars, numOfVarsOneCone, vertexRayCones, polytopeAsOneCone,
    triangulatedPoly. *)
Record pval := mkVal { pv_vars : nat; pv_one : nat; pv_cones : list vcone; pv_cone : option vcone; pv_tri : list vcone }.
(** PolytopeValuation.cpp:18-59: the constructor, for a bounded polyhedron given by
    tangent cones, and for one given by the single cone over it. *)
Definition from_cones (vars : nat) (cones : list vcone) : pval := mkVal vars (vars + 1) cones None [].
Definition from_one (vars : nat) (cone : vcone) : pval := mkVal vars vars [] (Some cone) [].

(** PolytopeValuation.cpp:1278-1281 lcm *)
Definition vlcm (a b : Z) : outcome Z := zdiv (a * b) (Z.gcd a b).
Fixpoint vlcm_loop (acc : Z) (l : list Z) : outcome Z :=
  match l with [] => Ok acc | x :: l' => bind (vlcm acc x) (fun a => vlcm_loop a l') end.
(** Entry of a vector: checked access. *)
Definition at_ (l : list Z) (i : nat) : outcome Z := match nth_error l i with Some x => Ok x | None => Err OutOfBounds end.
(** NTL divide(q, a, b): q = a/b if b divides a. *)
Definition ntl_divide (a b : Z) : option Z :=
  if b =? 0 then (if a =? 0 then Some 0 else None) else if a mod b =? 0 then Some (a / b) else None.

(** PolytopeValuation.cpp:348-363 findDilationFactorOneCone *)
Fixpoint factor_one (n : nat) (rays : list (list Z)) (acc : Z) : outcome Z :=
  match rays with
  | [] => Ok acc
  | r :: rays' => bind (at_ r (n - 1)) (fun a => bind (vlcm acc a) (factor_one n rays'))
  end.
(** PolytopeValuation.cpp:366-379 findDilationFactorVertexRays *)
Fixpoint factor_rays (n : nat) (cones : list vcone) (acc : Z) : outcome Z :=
  match cones with
  | [] => Ok acc
  | c :: cones' =>
      if (length (denominator (vc_vertex c)) <? n)%nat then Err OutOfBounds
      else bind (vlcm_loop acc (firstn n (denominator (vc_vertex c)))) (factor_rays n cones')
  end.
(** PolytopeValuation.cpp:161-175 dilatePolytopeOneCone *)
Fixpoint dilate_one (n : nat) (k : Z) (rays : list (list Z)) : outcome (list (list Z)) :=
  match rays with
  | [] => Ok []
  | r :: rays' =>
      bind (at_ r (n - 1)) (fun a =>
      match ntl_divide k a with
      | None => Err AssertFail
      | Some q => bind (dilate_one n k rays') (fun rs => Ok (upd (map (fun x => x * q) r) (n - 1) k :: rs))
      end)
  end.
(** PolytopeValuation.cpp:184-191 dilatePolytopeVertexRays *)
Fixpoint dilate_rays (f : rat) (cones : list vcone) : outcome (list vcone) :=
  match cones with
  | [] => Ok []
  | c :: cones' =>
      bind (scalar_multiplication (vc_vertex c) (num f) (den f)) (fun v =>
      bind (dilate_rays f cones') (fun cs => Ok (mkVC v (vc_rays c) (vc_coef c) :: cs)))
  end.
(** PolytopeValuation.cpp:427-438, 846-857: the factor and the dilated object. *)
Definition dilate (st : pval) : outcome (Z * pval) :=
  if negb (pv_vars st =? pv_one st)%nat then
    match pv_cones st with
    | [] => Err AssertFail
    | _ => bind (factor_rays (pv_vars st) (pv_cones st) 1) (fun k =>
           bind (dilate_rays (rat_make k 1) (pv_cones st)) (fun cs =>
           Ok (k, mkVal (pv_vars st) (pv_one st) cs (pv_cone st) (pv_tri st))))
    end
  else
    match pv_cone st with
    | None => Err AssertFail
    | Some c => bind (factor_one (pv_one st) (vc_rays c) 1) (fun k =>
                bind (dilate_one (pv_one st) k (vc_rays c)) (fun rs =>
                Ok (k, mkVal (pv_vars st) (pv_one st) (pv_cones st) (Some (mkVC (vc_vertex c) rs (vc_coef c))) (pv_tri st))))
    end.

(** PolytopeValuation.cpp:121-144: one ray [integer vertex, scale] per vertex. *)
Fixpoint build_rays (n : nat) (cones : list vcone) : outcome (list (list Z)) :=
  match cones with
  | [] => Ok []
  | c :: cones' => bind (scale_to_integer (vc_vertex c) n) (fun '(_, w, s) =>
                   bind (build_rays n cones') (fun rs => Ok ((w ++ [s]) :: rs)))
  end.
(** PolytopeValuation.cpp:88-152 convertToOneCone *)
Definition convert_to_one (st : pval) : outcome pval :=
  match pv_cone st, pv_tri st with
  | Some _, _ => Ok st
  | None, _ :: _ => Ok st
  | None, [] =>
      match pv_cones st with
      | [] => Err Exited
      | _ => assert_then (pv_vars st + 1 =? pv_one st)%nat
             (bind (build_rays (pv_vars st) (pv_cones st)) (fun rs =>
              Ok (mkVal (pv_vars st) (pv_one st) (pv_cones st) (Some (mkVC (rv_zero (pv_vars st + 1)) rs 1)) (pv_tri st))))
      end
  end.
(** PolytopeValuation.cpp:1390-1406 triangulatePolytopeCone *)
Definition triangulate_one (T : nat -> vcone -> list vcone) (st : pval) : outcome pval :=
  match pv_tri st with
  | _ :: _ => Ok st
  | [] => match pv_cone st with
          | None => Err Exited
          | Some c => Ok (mkVal (pv_vars st) (pv_one st) (pv_cones st) (pv_cone st) (T (pv_one st) c))
          end
  end.
(** PolytopeValuation.cpp:1412-1451 triangulatePolytopeVertexRayCone *)
Definition triangulate_rays (T : nat -> vcone -> list vcone) (st : pval) : pval :=
  match pv_tri st with
  | _ :: _ => st
  | [] => mkVal (pv_vars st) (pv_one st) (pv_cones st) (pv_cone st)
            (fold_left (fun tri c => T (pv_vars st) c ++ tri) (pv_cones st) [])
  end.

(** ** The integrand *)
(** NTL power(ZZ, long): a negative exponent stops the program. *)
Definition ntl_power (k : Z) (e : Z) : outcome Z := if e <? 0 then Err Exited else Ok (k ^ e).
(** rational.cpp:262-267 RationalNTL::div(ZZ) *)
Definition rat_div_z (a : rat) (z : Z) : rat := canonicalize (mkRat (num a) (den a * z)).
(** PolytopeValuation.cpp:227-251: the loop over the monomials; [nc] counts the
    constant ones. *)
Fixpoint dilate_monomials (k : Z) (ts : list (bterm rat)) (m : msum rat) (c : rat) (nc : nat) : outcome (msum rat * rat * nat) :=
  match ts with
  | [] => Ok (m, c, nc)
  | t :: ts' =>
      let deg := fold_left Z.add (t_exps t) 0 in
      bind (ntl_power k deg) (fun q =>
      let co := rat_div_z (t_coef t) q in
      if deg =? 0 then dilate_monomials k ts' m (rat_add c co) (S nc)
      else bind (insert_monomial rat_add rat_zero m co (t_exps t)) (fun m' => dilate_monomials k ts' m' c nc))
  end.
(** PolytopeValuation.cpp:200-275 dilatePolynomialToLinearForms: the linear forms and the
    constant term. *)
Definition dilate_polynomial (p : msum rat) (k : Z) : outcome (msum rat * rat) :=
  bind (sum_terms rat_zero p) (fun ts =>
  bind (dilate_monomials k ts (new_sum (ms_vars p)) (mkRat 0 1) 0) (fun '(m, c, nc) =>
  assert_then ((ms_terms p =? ms_terms m + nc)%nat && (ms_vars p =? ms_vars m)%nat)
  (assert_then (nc <=? 1)%nat
  (if (ms_terms m =? 0)%nat then Ok (new_sum (ms_vars m), c)
   else bind (sum_terms rat_zero m) (fun ts' => bind (decompose ts' (new_sum (ms_vars m))) (fun f => Ok (f, c))))))).
(** PolytopeValuation.cpp:283-330 dilateLinearForms *)
Fixpoint dilate_forms_loop (k : Z) (ts : list (bterm rat)) (m : msum rat) (c : rat) : outcome (msum rat * rat) :=
  match ts with
  | [] => Ok (m, c)
  | t :: ts' =>
      if negb (t_deg t =? 0) then
        bind (ntl_power k (t_deg t)) (fun q =>
        bind (insert_form rat_add rat_zero m (rat_div_z (t_coef t) q) (t_deg t) (t_exps t)) (fun m' => dilate_forms_loop k ts' m' c))
      else dilate_forms_loop k ts' m (rat_add c (t_coef t))
  end.
Definition dilate_forms (p : msum rat) (k : Z) : outcome (msum rat * rat) :=
  bind (sum_terms rat_zero p) (fun ts => dilate_forms_loop k ts (new_sum (ms_vars p)) (mkRat 0 1)).

(** ** Integration over the simplices *)
(** rational.cpp:225-233 add(ZZ, ZZ) *)
Definition rat_add_zz (a : rat) (n d : Z) : outcome rat :=
  assert_then (negb (d =? 0)) (Ok (canonicalize (mkRat (num a * d + n * den a) (den a * d)))).
(** PolytopeValuation.cpp:686-714: the simplex spanned by the rays without their last
    entries.  The vector of vertices has numOfVarsOneCone entries, so one ray more is
    out of bounds; with fewer rays NTL stops on the subtraction of vectors of different
    lengths. *)
Definition ray_simplex (one vars : nat) (rays : list (list Z)) : outcome simplex :=
  if (one <? length rays)%nat then Err OutOfBounds
  else if negb ((length rays =? one)%nat && (vars + 1 =? one)%nat) then Err AssertFail
  else if existsb (fun r => (length r <? one - 1)%nat) rays then Err OutOfBounds
  else
    let s := map (firstn (one - 1)) rays in
    Ok (mkSimplex vars s (Z.abs (det vars (fun j k => nth k (nth (S j) s []) 0 - nth k (nth 0 s []) 0)))).
Fixpoint simplices_loop (one vars : nat) (fs : list (bterm rat)) (tri : list vcone) (ans : rat) : outcome rat :=
  match tri with
  | [] => Ok ans
  | c :: tri' =>
      bind (ray_simplex one vars (vc_rays c)) (fun s =>
      bind (integrate_forms fs s) (fun r =>
      bind (rat_add_zz ans (fst r) (snd r)) (simplices_loop one vars fs tri')))
  end.
(** PolytopeValuation.cpp:666-730 findIntegralUsingTriangulation *)
Definition integral_triangulation (st : pval) (forms : msum rat) : outcome rat :=
  if (ms_terms forms =? 0)%nat then Ok (mkRat 0 1)
  else bind (sum_terms rat_zero forms) (fun fs => simplices_loop (pv_one st) (ms_vars forms) fs (pv_tri st) (mkRat 0 1)).
(** PolytopeValuation.cpp:755-831 findIntegralUsingLawrence (Perturb.v). *)
Definition integral_cones (fuel : nat) (rs : nat -> nat) (st : pval) (forms : msum rat) : outcome rat :=
  if (ms_terms forms =? 0)%nat then Ok (mkRat 0 1)
  else bind (sum_terms rat_zero forms) (fun fs =>
       bind (set_cones (map (fun c => mkPcone (enumerator (vc_vertex c)) (vc_rays c)) (pv_tri st))) (fun r =>
       lawrence_forms fuel (pv_vars st) rs 0 (snd r) fs (fst r) (mkRat 0 1))).

(** ** Volume *)
(** PolytopeValuation.cpp:336-343 factorial *)
Fixpoint factorial (n : nat) : Z := match n with O => 1 | S n' => if (1 <? n)%nat then Z.of_nat n * factorial n' else 1 end.
(** PolytopeValuation.cpp:1127-1160 findVolumeUsingDeterminant: a ray shorter than
    numOfVarsOneCone is read out of bounds; NTL stops on a non-square matrix. *)
Definition volume_determinant (one : nat) (rays : list (list Z)) : outcome rat :=
  if existsb (fun r => (length r <? one)%nat) rays then Err OutOfBounds
  else if negb (length rays =? one)%nat then Err AssertFail
  else
    let d := fold_left (fun acc r => acc * nth (one - 1) r 0) rays 1 in
    Ok (rat_make (Z.abs (det one (fun i k => nth k (nth i rays []) 0))) (d * factorial (length rays - 1))).
Fixpoint volume_loop (one : nat) (tri : list vcone) (ans : rat) : outcome rat :=
  match tri with
  | [] => Ok ans
  | c :: tri' => bind (volume_determinant one (vc_rays c)) (fun v => volume_loop one tri' (rat_add ans v))
  end.
(** PolytopeValuation.cpp:1213-1254: the cones in turn; None: divided by zero. *)
Fixpoint lawrence_volume (n : nat) (c : list Z) (tri : list vcone) (ans : rat) : outcome (option rat) :=
  match tri with
  | [] => Ok (Some ans)
  | k :: tri' =>
      bind (scale_to_integer (vc_vertex k) n) (fun '(_, vert, s) =>
      let nu := dotz vert c 0 ^ Z.of_nat n in
      let de := fold_left (fun acc r => acc * (-1 * dotz c r 0)) (vc_rays k) (s ^ Z.of_nat n) in
      if (n <? length (vc_rays k))%nat then Err OutOfBounds
      else if negb (length (vc_rays k) =? n)%nat then Err AssertFail       (* stale columns: not modelled *)
      else if existsb (fun r => (length r <? n)%nat) (vc_rays k) then Err OutOfBounds
      else
        let nu := nu * (Z.abs (det n (fun row col => nth row (nth col (vc_rays k) []) 0)) * vc_coef k) in
        if de =? 0 then Ok None
        else bind (rat_add_zz ans nu de) (lawrence_volume n c tri'))
  end.
(** PolytopeValuation.cpp:1206-1256: a random vector (entries rand() % 10000) until no
    division by zero; [rs i] is the i-th value of rand(). *)
Fixpoint lawrence_tries (fuel n : nat) (rs : nat -> nat) (tri : list vcone) : outcome rat :=
  match fuel with
  | O => Err OutOfFuel
  | S f =>
      bind (lawrence_volume n (map (fun i => Z.of_nat (rs i) mod 10000) (seq 0 n)) tri (mkRat 0 1)) (fun r =>
      match r with
      | Some v => Ok v
      | None => lawrence_tries f n (fun i => rs (n + i)%nat) tri
      end)
  end.
(** PolytopeValuation.cpp:1180-1262 findVolumeUsingLawrence *)
Definition volume_lawrence (fuel n : nat) (rs : nat -> nat) (tri : list vcone) : outcome rat :=
  bind (lawrence_tries fuel n rs tri) (fun v => Ok (canonicalize (mkRat (num v * 1) (den v * factorial n)))).

Inductive algorithm := Cones | Triangulation.
(** PolytopeValuation.cpp:1083-1110 findVolume *)
Definition find_volume (T : nat -> vcone -> list vcone) (fuel : nat) (rs : nat -> nat) (a : algorithm) (st : pval) : outcome (rat * pval) :=
  match a with
  | Triangulation =>
      bind (convert_to_one st) (fun st1 => bind (triangulate_one T st1) (fun st2 =>
      bind (volume_loop (pv_one st2) (pv_tri st2) (mkRat 0 1)) (fun v => Ok (v, st2))))
  | Cones =>
      let st1 := triangulate_rays T st in
      bind (volume_lawrence fuel (pv_vars st1) rs (pv_tri st1)) (fun v => Ok (v, st1))
  end.
(** PolytopeValuation.cpp:453-490, 874-911: integration of the dilated forms and of the
    constant [c]; [k] is the dilation factor.  The random numbers of the two parts of the
    cone method are two streams. *)
Definition integrate_dilated (T : nat -> vcone -> list vcone) (fuel : nat) (rs rs' : nat -> nat) (a : algorithm)
    (vars : nat) (k : Z) (forms : msum rat) (c : rat) (st : pval) : outcome (rat * pval) :=
  match a with
  | Cones =>
      let st1 := triangulate_rays T st in
      bind (integral_cones fuel rs st1 forms) (fun v =>
      bind (if negb (rat_eqb_z c 0)
            then bind (find_volume T fuel rs' Cones st1) (fun r => Ok (rat_add (rat_add (mkRat 0 1) v) (rat_mul_fun (fst r) c), snd r))
            else Ok (rat_add (mkRat 0 1) v, st1)) (fun '(ans, st2) =>
      Ok (rat_div_z ans (k ^ Z.of_nat vars), st2)))
  | Triangulation =>
      bind (convert_to_one st) (fun st1 => bind (triangulate_one T st1) (fun st2 =>
      bind (integral_triangulation st2 forms) (fun v =>
      let ans := rat_div_z (rat_add (mkRat 0 1) v) (k ^ Z.of_nat vars) in
      if negb (rat_eqb_z c 0)
      then bind (find_volume T fuel rs' Triangulation st2) (fun '(w, st3) =>
           let w1 := rat_mul_fun w c in
           let w2 := if negb (pv_vars st3 =? pv_one st3)%nat then rat_div_z w1 (k ^ Z.of_nat vars) else w1 in
           Ok (rat_add ans w2, st3))
      else Ok (ans, st2))))
  end.
(** PolytopeValuation.cpp:416-491 findIntegral(linFormSum, algorithm) *)
Definition find_integral_forms (T : nat -> vcone -> list vcone) (fuel : nat) (rs rs' : nat -> nat) (a : algorithm)
    (forms : msum rat) (st : pval) : outcome (rat * pval) :=
  bind (dilate st) (fun '(k, st1) =>
  bind (dilate_forms forms k) (fun '(fs, c) =>
  integrate_dilated T fuel rs rs' a (ms_vars fs) k fs c st1)).
(** PolytopeValuation.cpp:835-912 findIntegralPolynomialToLinearForms *)
Definition find_integral_polynomial (T : nat -> vcone -> list vcone) (fuel : nat) (rs rs' : nat -> nat) (a : algorithm)
    (p : msum rat) (st : pval) : outcome (rat * pval) :=
  bind (dilate st) (fun '(k, st1) =>
  bind (dilate_polynomial p k) (fun '(fs, c) =>
  integrate_dilated T fuel rs rs' a (ms_vars p) k fs c st1)).
(** A history of calls on one object, by the triangulation method. *)
Inductive vcall := CallVolume | CallForms (forms : msum rat) | CallPolynomial (p : msum rat).
Definition vstep (T : nat -> vcone -> list vcone) (c : vcall) (st : pval) : outcome (rat * pval) :=
  match c with
  | CallVolume => find_volume T 0 (fun _ => O) Triangulation st
  | CallForms f => find_integral_forms T 0 (fun _ => O) (fun _ => O) Triangulation f st
  | CallPolynomial p => find_integral_polynomial T 0 (fun _ => O) (fun _ => O) Triangulation p st
  end.
Fixpoint vrun (T : nat -> vcone -> list vcone) (cs : list vcall) (st : pval) : outcome (list rat) :=
  match cs with
  | [] => Ok []
  | c :: cs' => bind (vstep T c st) (fun '(v, st') => bind (vrun T cs' st') (fun vs => Ok (v :: vs)))
  end.

(** triangulateCone (triangulate.cpp, not modelled): for every cone a list of cones each
    spanned by n+1 of its rays; [triangulated]: the simplices with the indices [idx] are
    those of the triangulation of a cone over a multiple of the polytope. *)
