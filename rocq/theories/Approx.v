(** Model of the approximation of the number of integer points by intervals (count
    --approximate): code/latte/ExponentialApprox.cpp, with code/latte/count.cpp:297-305, 563-574.
    Simplifications: mpq_class values are rationals; the heap is a list, and which of its
    elements is on top (the largest difference of bounds, rounded to double, see C08 for the heap)
    is the parameter [pick], of the whole state; its size (100000) is a parameter; the random generic vector is the parameter
    [g].  The cones given have rays only (as when the vertices come from 4ti2, C87), so that
    dualizeCone and triangulateCone never meet facets computed before; dualization of cones that are not
    simplicial is not modelled (the triangulation gives simplicial ones).  Ghost outputs:
    the cones evaluated.  Output formats, the sample file and memory management are not modelled. *)
From Coq Require Import QArith.
From Verif Require Import Common ZMat RatVec Piped Exponential Irrational Barvinok Count.
Open Scope Z_scope.

(** ExponentialApprox.cpp:60-75: bounds of <c, v>; NTL's DivRem rounds down. *)
Definition vertex_bounds (n : nat) (g : list Z) (v : rvec) : outcome (Z * Z) :=
  bind (scale_to_integer v n) (fun '(_, w, s) =>
  if s =? 0 then Err DivByZero
  else let p := zdot g w in let l := p / s in Ok (l, if p mod s =? 0 then l else l + 1)).
(** ExponentialApprox.cpp:84-91: one ray. *)
Definition add_ray (b : Z * Z) (p : Z) : Z * Z :=
  if p <? 0 then (fst b + p, snd b) else if 0 <? p then (fst b, snd b + p) else b.
(** ExponentialApprox.cpp:95-128: bounds of the powers, for k more exponents. *)
Fixpoint power_bounds (k : nat) (even : bool) (lower upper lk uk : Z) : list (Z * Z) :=
  match k with
  | O => []
  | S k' =>
      (if even then
         if upper <? 0 then (uk, lk) else if 0 <? lower then (lk, uk) else (0, if uk <? lk then lk else uk)
       else (lk, uk)) :: power_bounds k' (negb even) lower upper (lk * lower) (uk * upper)
  end.
(** ExponentialApprox.cpp:130-153 *)
Fixpoint total_bounds (coef adet : Z) (bs : list (Z * Z)) (ws : list Q) (acc : Q * Q) : outcome (Q * Q) :=
  match bs, ws with
  | [], _ => Ok acc
  | _ :: _, [] => Err OutOfBounds
  | (l, u) :: bs', w :: ws' =>
      let lc := (inject_Z (coef * l * adet) * w)%Q in
      let uc := (inject_Z (coef * u * adet) * w)%Q in
      let b := if Qlt_le_dec lc uc then (lc, uc) else (uc, lc) in
      total_bounds coef adet bs' ws' ((fst acc + fst b)%Q, (snd acc + snd b)%Q)
  end.
(** ExponentialApprox.cpp:33-154 ConeApproximationData *)
Definition cone_bounds (n : nat) (g : list Z) (v : rvec) (d : bcone) : outcome (Q * Q) :=
  bind (residue_weights g (s_rays (b_cone d))) (fun ws =>
  if negb (length (s_rays (b_cone d)) =? n)%nat then Err AssertFail
  else
  bind (vertex_bounds n g v) (fun b0 =>
  let b := fold_left add_ray (map (zdot g) (s_rays (b_cone d))) b0 in
  total_bounds (b_coef d) (Z.abs (s_det (b_cone d))) (power_bounds (n + 1) true (fst b) (snd b) 1 1) ws (0%Q, 0%Q))).

(** The state: total bounds, the heap, the cones evaluated so far, the bounds shown so far. *)
Notation hitem := (rvec * bcone * (Q * Q))%type.
Record astate := mkA { a_lower : Q; a_upper : Q; a_heap : list hitem; a_met : list (rvec * bcone); a_shown : list (Q * Q) }.
(** ExponentialApprox.cpp:162-169 *)
Definition initial : astate := mkA 0 0 [] [] [].
(** ExponentialApprox.cpp:198-221 EvaluateCone; heap.cpp:458 asserts that there is room. *)
Definition evaluate (P : params) (n : nat) (size : Z) (g : list Z) (v : rvec) (d : bcone) (st : astate) : outcome astate :=
  if Z.abs (s_det (b_cone d)) <=? q_max_det P then
    bind (residue_weights g (s_rays (b_cone d))) (fun _ =>
    bind (scalar_products (q_fuel2 P) (q_xg P) n (b_cone d) v g) (fun sps =>
    bind (residue_single n g (mkE (b_coef d) (s_rays (b_cone d)) sps 0)) (fun q =>
    Ok (mkA (a_lower st + q) (a_upper st + q) (a_heap st) (a_met st ++ [(v, d)]) (a_shown st)))))
  else
    bind (cone_bounds n g v d) (fun b =>
    if Z.of_nat (length (a_heap st)) <? size
    then Ok (mkA (a_lower st + fst b) (a_upper st + snd b) (a_heap st ++ [(v, d, b)]) (a_met st ++ [(v, d)]) (a_shown st))
    else Err AssertFail).
(** ExponentialApprox.cpp:171-196 ConsumeCone, for a cone of the triangulation given by its rays;
    count.cpp:297-305 excludes dual decomposition. *)
Definition consume (P : params) (n : nat) (size : Z) (g : list Z) (v : rvec) (t : list (list Z)) (st : astate) : outcome astate :=
  if negb (length t =? n)%nat then Err AssertFail
  else bind (det_and_facets n t) (fun c =>
       match q_mode P with
       | IrrationalPrimalDecomposition =>
           let c' := swap_cone c in
           bind (irrationalize (q_depth P) n c' v) (fun nv => evaluate P n size g nv (mkB 1 c') st)
       | _ => evaluate P n size g v (mkB 1 c) st
       end).
Fixpoint fold_out {A S} (f : A -> S -> outcome S) (l : list A) (st : S) : outcome S :=
  match l with [] => Ok st | x :: l' => bind (f x st) (fun st' => fold_out f l' st') end.
(** ExponentialApprox.cpp:362-368: the cones, triangulated. *)
Definition consume_cones (P : params) (n : nat) (size : Z) (g : list Z) (cones : list vcone) (st : astate) : outcome astate :=
  fold_out (fun c => fold_out (consume P n size g (fst (fst c))) (q_tri P (snd (fst c)))) cones st.
(** ExponentialApprox.cpp:393-399: the children that are not NULL. *)
Definition evaluate_children (P : params) (n : nat) (size : Z) (g : list Z) (v : rvec) (ch : list (option bcone)) (st : astate) : outcome astate :=
  fold_out (fun o st => match o with None => Ok st | Some d => evaluate P n size g v d st end) ch st.
(** ExponentialApprox.cpp:370-402: the loop; when barvinokStep returns false the children are
    all NULL and nothing is evaluated. *)
Fixpoint refine (fuel : nat) (P : params) (n : nat) (size : Z) (g : list Z) (pick : astate -> nat) (st : astate) : outcome astate :=
  match fuel with
  | O => Err OutOfFuel
  | S f =>
      match a_heap st with
      | [] => Ok st
      | _ :: _ =>
          match nth_error (a_heap st) (pick st) with
          | None => Err OutOfBounds
          | Some (v, d, b) =>
              let rest := firstn (pick st) (a_heap st) ++ skipn (S (pick st)) (a_heap st) in
              let st1 := mkA (a_lower st - fst b) (a_upper st - snd b) rest (a_met st) (a_shown st ++ [(a_lower st, a_upper st)]) in
              bind (step (q_sv P) (q_omega P) (q_ker P) n d) (fun r =>
              bind (match r with None => Ok st1 | Some (ch, _) => evaluate_children P n size g v ch st1 end) (fun st2 =>
              refine f P n size g pick st2))
          end
      end
  end.
(** ExponentialApprox.cpp:354-405: the pairs of bounds shown (ShowStats 344-352), the final ones
    last, and the cones evaluated. *)
Definition approximate_cones (P : params) (n : nat) (size : Z) (g : list Z) (pick : astate -> nat) (cones : list vcone) : outcome (list (Q * Q) * list (rvec * bcone)) :=
  bind (consume_cones P n size g cones initial) (fun st0 =>
  bind (refine (q_fuel P) P n size g pick st0) (fun st =>
  Ok (a_shown st ++ [(a_lower st, a_upper st)], a_met st))).
(** count.cpp:297-305: irrational primal instead of dual decomposition. *)
Definition approx_mode (m : decomposition) : decomposition := match m with DualDecomposition => IrrationalPrimalDecomposition | m => m end.
Definition approx_params (P : params) : params := mkParams (q_fuel P) (q_fuel2 P) (q_depth P) (approx_mode (q_mode P)) (q_sv P) (q_max_det P) (q_omega P) (q_ker P) (q_xg P) (q_tri P).
(** count.cpp, --approximate, dual or irrational primal decomposition. *)
Definition approximate (P : params) (n : nat) (size : Z) (g : list Z) (pick : astate -> nat) (rows : list (list Z)) (vs : list rvec) : outcome (list (Q * Q) * list (rvec * bcone)) :=
  bind (dual_cones n rows vs) (approximate_cones (approx_params P) n size g pick).
