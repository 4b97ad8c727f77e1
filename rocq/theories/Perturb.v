(** Model of the integration of powers of linear forms over tangent cones
    (code/latte/valuation/Perturbation.cpp:37-536, computeResidueLawrence in
    code/latte/integration/residue.cpp:297-434, findIntegralUsingLawrence in
    code/latte/valuation/PolytopeValuation.cpp:755-831).  ZZ and int are Z, so overflow of
    int is not modelled; the pointer latticeInverse is NULL throughout (its setter,
    PolytopeValuation.cpp:1375, has no caller in the repository).  rand() is a stream of
    natural numbers.  NTL's determinant is [Det.det]. *)
From Verif Require Import Common Rational Trie Integ ZMat Det.
Open Scope Z_scope.

(** Perturbation.h:75-80 linearPerturbation: constant + epsilon * e, with a power. *)
Record lp := mkLp { lp_const : Z; lp_eps : Z; lp_pow : Z }.
(** A simplicial cone of the list: numerators of its vertex, rays. *)
Record pcone := mkPcone { pc_vertex : list Z; pc_rays : list (list Z) }.
(** Perturbation.h:82-91 the members of LinearLawrenceIntegration. *)
Record cterm := mkCterm { ct_cone : pcone; ct_zero : bool; ct_dots : list lp; ct_num : lp; ct_det : rat }.

(** Perturbation.cpp:34-52, 202-220 setListCones, setSimplicialCone: the number of rays is
    taken from the first cone; vector::resize value-initialises. *)
Definition set_cones (cones : list pcone) : outcome (list cterm * nat) :=
  match cones with
  | [] => Err NullDeref
  | c :: _ => let n := length (pc_rays c) in
      Ok (map (fun c => mkCterm c false (repeat (mkLp 0 0 0) n) (mkLp 0 0 0) (mkRat 0 1)) cones, n)
  end.

(** Perturbation.cpp:244-321 computeDotProducts(l, NULL, NULL): the cone with its dot
    products; lines 254-260: nothing else is touched if <v,l> = 0.  Line 276: the matrix
    has one row per entry of the first ray and one column per ray; NTL stops the program
    on the determinant of a non-square matrix. *)
Definition dots_plain (l : list Z) (c : cterm) : outcome cterm :=
  let p := dotz (pc_vertex (ct_cone c)) l 0 in
  if p =? 0 then Ok (mkCterm (ct_cone c) false (ct_dots c) (mkLp 0 0 0) (ct_det c))
  else
    let rays := pc_rays (ct_cone c) in
    let n := length (ct_dots c) in
    if (n <? length rays)%nat then Err OutOfBounds
    else match rays with
    | [] => Err NullDeref                                    (* rays->first *)
    | r0 :: _ =>
        if (length r0 <? length l)%nat then Err OutOfBounds   (* rayMatrix[j] *)
        else if negb (length r0 =? n)%nat then Err AssertFail  (* nonsquare matrix *)
        else
        let dots := map (fun r => mkLp (dotz l r 0) 0 0) rays in
        Ok (mkCterm (ct_cone c) (existsb (fun d => lp_const d =? 0) dots)
             (dots ++ skipn (length rays) (ct_dots c))
             (mkLp p (lp_eps (ct_num c)) (lp_pow (ct_num c)))
             (mkRat (Z.abs (det n (fun j i => nth j (nth i rays []) 0))) 1))
    end.
(** Perturbation.cpp:79-86 tryNoPerturbation. *)
Fixpoint try_plain (l : list Z) (cs : list cterm) : outcome (list cterm * bool) :=
  match cs with
  | [] => Ok ([], false)
  | c :: cs' => bind (dots_plain l c) (fun c' =>
                bind (try_plain l cs') (fun r => Ok (c' :: fst r, ct_zero c' || snd r)))
  end.

(** Perturbation.cpp:345-351: the loop over the rays, stopped at the first 0 + 0e; the
    flag tells that it was stopped. *)
Fixpoint dots_eps (e : list Z) (rays : list (list Z)) (ds : list lp) : outcome (list lp * bool) :=
  match rays, ds with
  | [], _ => Ok (ds, false)
  | _ :: _, [] => Err OutOfBounds
  | r :: rays', d :: ds' =>
      let d' := mkLp (lp_const d) (dotz e r 0) (lp_pow d) in
      if (lp_const d' =? 0) && (lp_eps d' =? 0) then Ok (d' :: ds', true)
      else bind (dots_eps e rays' ds') (fun r => Ok (d' :: fst r, snd r))
  end.
(** Perturbation.cpp:338-366 computeDotProducts(e, l). *)
Definition dots_pert (e : list Z) (c : cterm) : outcome (cterm * bool) :=
  if negb (ct_zero c) then Ok (c, false)
  else bind (dots_eps e (pc_rays (ct_cone c)) (ct_dots c)) (fun r =>
    if snd r then Ok (mkCterm (ct_cone c) (ct_zero c) (fst r) (ct_num c) (ct_det c), true)
    else Ok (mkCterm (ct_cone c) (ct_zero c) (fst r)
               (mkLp (lp_const (ct_num c)) (dotz e (pc_vertex (ct_cone c)) 0) (lp_pow (ct_num c))) (ct_det c), false)).
(** Perturbation.cpp:60-68 tryCurrentPerturbation: stops at the first cone that still
    divides by zero. *)
Fixpoint try_pert (e : list Z) (cs : list cterm) : outcome (list cterm * bool) :=
  match cs with
  | [] => Ok ([], false)
  | c :: cs' => bind (dots_pert e c) (fun r =>
      if snd r then Ok (fst r :: cs', true)
      else bind (try_pert e cs') (fun q => Ok (fst r :: fst q, snd q)))
  end.

(** Perturbation.cpp:122-129, 160-165: the point (1, t, t^2, ...) of the moment curve,
    negated for odd t. *)
Fixpoint moment (n : nat) (t cp : Z) : list Z :=
  match n with O => [] | S n' => cp * (if t mod 2 =? 0 then 1 else -1) :: moment n' t (cp * t) end.
(** Perturbation.cpp:131-140, 169-176: division of all entries but the first by the gcd. *)
Definition scale_down (e : list Z) : outcome (list Z) :=
  match e with
  | [] => Err OutOfBounds
  | x :: e' => let g := fold_left Z.gcd e' x in
      if 1 <? g then Ok (x :: map (fun y => y / g) e') else Ok e
  end.
Definition pick (dim : nat) (r : nat) : outcome (list Z) :=
  let t := Z.of_nat r mod 100 in scale_down (moment dim t 1).
(** Perturbation.cpp:147-178: new points until no cone divides by zero.  [rs k] is the
    k-th value of rand(). *)
Fixpoint pert_loop (fuel dim : nat) (rs : nat -> nat) (k : nat) (e : list Z) (cs : list cterm) : outcome (list cterm * nat) :=
  match fuel with
  | O => Err OutOfFuel
  | S f => bind (try_pert e cs) (fun r =>
      if snd r then bind (pick dim (rs k)) (fun e' => pert_loop f dim rs (S k) e' (fst r))
      else Ok (fst r, k))
  end.
(** Perturbation.cpp:100-186 findPerturbation; returns the cones and the number of random
    values used so far. *)
Definition find_perturbation (fuel dim : nat) (rs : nat -> nat) (k : nat) (l : list Z) (cs : list cterm) : outcome (list cterm * nat) :=
  bind (try_plain l cs) (fun r =>
  if snd r then bind (pick dim (rs k)) (fun e => pert_loop fuel dim rs (S k) e (fst r))
  else Ok (fst r, k)).

(** ** Merging equal factors *)
Definition lp0 := mkLp 0 0 0.
(** Perturbation.cpp:507-517: the loop over j = i+1, ...; returns the array and the count. *)
Fixpoint merge_equal (js : list nat) (x : lp) (a : list lp) (cnt : Z) : list lp * Z :=
  match js with
  | [] => (a, cnt)
  | j :: js' =>
      let y := nth j a lp0 in
      if (lp_const y =? lp_const x) && (lp_eps y =? lp_eps x) && (lp_pow y =? 0)
      then merge_equal js' x (upd a j (mkLp (lp_const y) (lp_eps y) (-1))) (cnt + 1)
      else merge_equal js' x a cnt
  end.
(** Perturbation.cpp:480-519: the loop over i; [loc] is locationOfe. *)
Fixpoint merge_loop (is : list nat) (n : nat) (a : list lp) (loc : option nat) : list lp * option nat :=
  match is with
  | [] => (a, loc)
  | i :: is' =>
      let x := nth i a lp0 in
      if lp_pow x <? 0 then merge_loop is' n a loc
      else if lp_const x =? 0 then
        match loc with
        | None => merge_loop is' n (upd a i (mkLp (lp_const x) (lp_eps x) 1)) (Some i)
        | Some k =>
            let z := nth k a lp0 in
            let a1 := upd a k (mkLp (lp_const z) (lp_eps z * lp_eps x) (lp_pow z + 1)) in
            merge_loop is' n (upd a1 i (mkLp (lp_const x) (lp_eps x) (-1))) loc
        end
      else
        let '(a1, cnt) := merge_equal (seq (S i) (n - S i)) x a 1 in
        merge_loop is' n (upd a1 i (mkLp (lp_const x) (lp_eps x) cnt)) loc
  end.
(** Perturbation.cpp:470-534 updatePowers. *)
Definition update_powers (a : list lp) : outcome (list lp) :=
  let '(a1, loc) := merge_loop (seq 0 (length a)) (length a) a None in
  match loc with
  | None => Err AssertFail                                   (* line 523 *)
  | Some k => Ok (if (0 <? k)%nat then upd (upd a1 0 (nth k a1 lp0)) k (nth 0 a1 lp0) else a1)
  end.

(** ** The residue *)
(** residue.cpp:333-342: the expansion of (p + q e)^N, degrees 0..truncateDegree. *)
Fixpoint numer_series2 (n : nat) (i N p q : Z) (m : msum rat) : outcome (msum rat) :=
  match n with
  | O => Ok m
  | S n' => bind (power_ZZ p (N - i)) (fun u => bind (power_ZZ q i) (fun v =>
            bind (insert_monomial rat_add rat_zero m (mkRat (choose N i * u * v) 1) [i]) (fun m' =>
            numer_series2 n' (i + 1) N p q m')))
  end.
(** residue.cpp:365-379: the series of 1/(x + y e)^c times x^(c + truncateDegree). *)
Fixpoint denom_series2 (n : nat) (j c T x y : Z) (m : msum rat) : outcome (msum rat) :=
  match n with
  | O => Ok m
  | S n' => bind (power_ZZ x (T - j)) (fun u => bind (power_ZZ y j) (fun v =>
            let r := mkRat (choose (c + j - 1) j * u * v) 1 in
            let r' := if j mod 2 =? 1 then rat_mul_z r (-1) else r in
            bind (insert_monomial rat_add rat_zero m r' [j]) (fun m' => denom_series2 n' (j + 1) c T x y m')))
  end.
(** residue.cpp:345-399: the factors with index >= 1; [de] and the product so far. *)
Fixpoint lawrence_loop (ds : list lp) (T : Z) (de : Z) (p : option (trie rat)) : outcome (Z * option (trie rat)) :=
  match ds with
  | [] => Ok (de, p)
  | d :: ds' =>
      if lp_pow d <=? 0 then lawrence_loop ds' T de p
      else if lp_eps d =? 0 then bind (power_ZZ (lp_const d) (lp_pow d)) (fun q => lawrence_loop ds' T (de * q) p)
      else
        bind (power_ZZ (lp_const d) (lp_pow d + T)) (fun q =>
        bind (denom_series2 (S (Z.to_nat T)) 0 (lp_pow d) T (lp_const d) (lp_eps d) (new_sum 1)) (fun m2 =>
        bind (deref p) (fun t1 => bind (deref (ms_trie m2)) (fun t2 =>
        bind (trie_multiply rat_add rat_zero rat_mul_fun t1 t2 1 [0] [T]) (fun t =>
        lawrence_loop ds' T (de * q) (Some t))))))
  end.
(** residue.cpp:297-434 computeResidueLawrence. *)
Definition residue_lawrence (d M : Z) (num_dot : lp) (dots : list lp) : outcome (Z * Z) :=
  match dots with
  | [] => Err OutOfBounds
  | z :: ds =>
      let T := lp_pow z in
      bind (numer_series2 (Z.to_nat (T + 1)) 0 (M + d) (lp_const num_dot) (lp_eps num_dot) (new_sum 1)) (fun m1 =>
      bind (lawrence_loop (firstn (Z.to_nat (d - 1)) ds) T (lp_eps z) (ms_trie m1)) (fun r =>
      bind (deref (snd r)) (fun t => bind (iterate rat_zero t 1) (fun terms =>
      let c := find_coeff terms T in
      Ok (1 * num c, fst r * den c)))))
  end.

(** Perturbation.cpp:394-442 integrateTerm. *)
Definition integrate_term (total : rat) (m dim : Z) (c : cterm) : outcome rat :=
  if lp_const (ct_num c) =? 0 then Ok total
  else if negb (ct_zero c) then
    let nu := lp_const (ct_num c) ^ (m + dim) in
    let de := fold_left (fun acc d => acc * lp_const d) (ct_dots c) 1 in
    Ok (rat_add total (rat_mul_fun (rat_make nu de) (ct_det c)))
  else
    bind (update_powers (ct_dots c)) (fun ds =>
    bind (residue_lawrence dim m (ct_num c) ds) (fun r =>
    Ok (rat_add total (rat_mul_fun (rat_make (fst r) (snd r)) (ct_det c))))).
(** Perturbation.cpp:196-206 integratePolytope. *)
Fixpoint integrate_terms (total : rat) (m dim : Z) (cs : list cterm) : outcome rat :=
  match cs with [] => Ok total | c :: cs' => bind (integrate_term total m dim c) (fun t => integrate_terms t m dim cs') end.
Definition integrate_polytope (m : Z) (n : nat) (cs : list cterm) : outcome rat :=
  bind (integrate_terms (mkRat 0 1) m (Z.of_nat n) cs) (fun t =>
  Ok (if Nat.odd n then mkRat (num t * -1) (den t) else t)).

(** PolytopeValuation.cpp:788-829: the linear forms in turn; the container keeps its cones
    between two forms, so their old dot products stay until overwritten.  updatePowers
    changes a copy here, which is the same: the next findPerturbation writes all entries
    of the cones it uses, or marks the cone as unused. *)
Fixpoint lawrence_forms (fuel dim : nat) (rs : nat -> nat) (k n : nat) (ts : list (bterm rat)) (cs : list cterm) (ans : rat) : outcome rat :=
  match ts with
  | [] => Ok ans
  | t :: ts' =>
      bind (find_perturbation fuel dim rs k (t_exps t) cs) (fun r =>
      bind (integrate_polytope (t_deg t) n (fst r)) (fun v =>
      let de := fact_loop (Z.to_nat (Z.of_nat dim + t_deg t)) 1 1 in
      let v' := rat_mul_fun v (t_coef t) in
      let v'' := canonicalize (mkRat (num v') (den v' * de)) in
      lawrence_forms fuel dim rs (snd r) n ts' (fst r) (rat_add ans v'')))
  end.
(** PolytopeValuation.cpp:755-831 findIntegralUsingLawrence; [dim] is numOfVars and the
    dimension of the polytope. *)
Definition integral_lawrence (fuel dim : nat) (rs : nat -> nat) (cones : list pcone) (ts : list (bterm rat)) : outcome rat :=
  match ts with
  | [] => Ok (mkRat 0 1)
  | _ => bind (set_cones cones) (fun r => lawrence_forms fuel dim rs 0 (snd r) ts (fst r) (mkRat 0 1))
  end.
