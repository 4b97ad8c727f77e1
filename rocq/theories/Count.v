(** Model of counting and of the Ehrhart polynomial from the inequalities and the vertices of
    a polytope: code/latte/count.cpp:350-620 (exponential substitution), dual.cpp:280-312,
    barvinok/dec.cpp:119-162, barvinok/barvinok.cpp:562-586, ExponentialSubst.cpp:199-237,
    ExponentialEhrhart.cpp:25-80.
    Simplifications: the vertices are a parameter (they come from cddlib), so are the
    triangulation of a cone (cddlib), the short vectors, the relations of NTL's image() and
    NTL's XGCD (see Barvinok.v, Piped.v); the random generic vectors are a list.  What the caller's
    function does with a cone is computed after the decomposition of a simplicial cone rather
    than during it, so if both fail the failure of the decomposition is reported.  The integer
    scale cached in a vertex is dropped (it does not change the coordinates, C05).  Output,
    counters and memory management are not modelled. *)
From Coq Require Import QArith.
From Verif Require Import Common ZMat RatVec Piped Exponential Irrational Barvinok.
Open Scope Z_scope.

(** dual.cpp:293-304 *)
Definition tight_product (n : nat) (w : list Z) (s : Z) (ineq : list Z) : Z := s * nth 0 ineq 0 + zsum n (fun i => nth i w 0 * nth (S i) ineq 0).
(** dual.cpp:280-312 computeTightInequalitiesOfCones, for a cone without facets; every tight
    inequality is put in front of the list, with its signs changed. *)
Definition tight_inequalities (n : nat) (rows : list (list Z)) (v : rvec) : outcome (list (list Z)) :=
  bind (scale_to_integer v n) (fun '(_, w, s) =>
  if negb (forallb (fun r => (length r =? S n)%nat) rows) then Err OutOfBounds
  else Ok (fold_left (fun acc ineq => if tight_product n w s ineq =? 0 then map (fun i => - nth (S i) ineq 0) (seq 0 n) :: acc else acc) rows [])).
(** A cone handed to the decomposition: its vertex, its rays, and Vertex::ehrhart_vertex. *)
Notation vcone := (rvec * list (list Z) * list Z)%type.
(** count.cpp:416-430: the facets are the tight inequalities, and dualizeCones swaps them with
    the rays (dual.cpp:152-164). *)
Definition dual_cones (n : nat) (rows : list (list Z)) (vs : list rvec) : outcome (list vcone) :=
  mapM (fun v => bind (tight_inequalities n rows v) (fun F => Ok (v, F, []))) vs.
(** count.cpp:362-376, 383-408, 416-430: for the Ehrhart polynomial the facets are found first,
    then the vertex is kept as an integer vector (failing with pe_RationalPolytope) and replaced
    by the origin. *)
Definition ehrhart_cone (n : nat) (rows : list (list Z)) (v : rvec) : outcome vcone :=
  bind (tight_inequalities n rows v) (fun F =>
  bind (scale_to_integer v n) (fun '(_, w, s) => if s =? 1 then Ok (rv_zero n, F, w) else Err Thrown)).

(** Parameters: fuel for the decomposition and for the parallelepipeds, number of halvings in
    irrationalizing, and the library functions. *)
Record params := mkParams { q_fuel : nat; q_fuel2 : nat; q_depth : nat; q_mode : decomposition; q_sv : shortvector; q_max_det : Z;
  q_omega : nat -> list (list Z) -> list Z; q_ker : list (list Z) -> list Z; q_xg : Z -> Z -> Z * Z * Z; q_tri : list (list Z) -> list (list (list Z)) }.
Definition start : bstate := mkSt [] 0 0 0 0 0.

(** Passing the cones to the caller's function in turn; None is the status -1. *)
Fixpoint consume_all {A} (f : bcone -> A -> outcome (option A)) (ds : list bcone) (acc : A) : outcome (option A) :=
  match ds with
  | [] => Ok (Some acc)
  | d :: ds' => bind (f d acc) (fun o => match o with None => Ok None | Some acc' => consume_all f ds' acc' end)
  end.
Definition decompose_piece (P : params) (n : nat) (v : rvec) (status : bcone -> Z) (t : list (list Z)) : outcome (rvec * (Z * bstate)) :=
  single (q_fuel P) (q_depth P) (q_mode P) (q_sv P) (q_omega P) (q_ker P) (q_max_det P) n v (fun _ d => status d) t start.
(** barvinok.cpp:570-579: the loop over the triangulation. *)
Fixpoint pieces_loop {A} (P : params) (n : nat) (v : rvec) (status : bcone -> Z) (f : rvec -> bcone -> A -> outcome (option A)) (ts : list (list (list Z))) (acc : A) : outcome (option A) :=
  match ts with
  | [] => Ok (Some acc)
  | t :: ts' =>
      if negb (length t =? n)%nat then Err AssertFail
      else bind (decompose_piece P n v status t) (fun '(v', (r, st)) =>
           bind (consume_all (f v') (delivered st) acc) (fun o =>
           match o with None => Ok None | Some acc' => if r =? -1 then Ok None else pieces_loop P n v status f ts' acc' end))
  end.
(** dec.cpp:143-156 with barvinok.cpp:562-586 barvinokDecomposition_Single *)
Fixpoint cones_loop {A} (P : params) (n : nat) (status : bcone -> Z) (f : list Z -> rvec -> bcone -> A -> outcome (option A)) (cones : list vcone) (acc : A) : outcome (option A) :=
  match cones with
  | [] => Ok (Some acc)
  | (v, R, w) :: cones' => bind (pieces_loop P n v status (f w) (q_tri P R) acc) (fun o => match o with None => Ok None | Some acc' => cones_loop P n status f cones' acc' end)
  end.
(** Status -1 of ConsumeCone: NotGenericException. *)
Definition generic_status (g : list Z) (d : bcone) : Z := match residue_weights g (s_rays (b_cone d)) with Err Thrown => -1 | _ => 1 end.
(** dec.cpp:137-162 barvinokDecomposition_List, for the generic vectors guessed in turn. *)
Fixpoint decomposition_list {A} (P : params) (n : nat) (f : list Z -> list Z -> rvec -> bcone -> A -> outcome (option A)) (init : A) (cones : list vcone) (guesses : list (list Z)) : outcome A :=
  match guesses with
  | [] => Err OutOfFuel
  | g :: gs => bind (cones_loop P n (generic_status g) (f g) cones init) (fun o => match o with Some a => Ok a | None => decomposition_list P n f init cones gs end)
  end.
(** ExponentialSubst.cpp:199-213 ConsumeCone (with 150-176) *)
Definition count_consume (P : params) (n : nat) (g w : list Z) (v : rvec) (d : bcone) (acc : Q) : outcome (option Q) :=
  match residue_weights g (s_rays (b_cone d)) with
  | Err Thrown => Ok None
  | Err e => Err e
  | Ok _ => bind (scalar_products (q_fuel2 P) (q_xg P) n (b_cone d) v g) (fun sps =>
            bind (residue_single n g (mkE (b_coef d) (s_rays (b_cone d)) sps 0)) (fun q => Ok (Some (acc + q)%Q)))
  end.
(** ExponentialSubst.cpp:222-237 decomposeAndComputeExponentialResidue *)
Definition count_cones (P : params) (n : nat) (guesses : list (list Z)) (cones : list vcone) : outcome Z :=
  bind (decomposition_list P n (count_consume P n) 0%Q cones guesses) (fun r =>
  let r' := Qred r in if Pos.eqb (Qden r') 1 then Ok (Qnum r') else Err AssertFail).
(** count.cpp, dual and irrational primal decomposition. *)
Definition count (P : params) (n : nat) (guesses : list (list Z)) (rows : list (list Z)) (vs : list rvec) : outcome Z :=
  bind (dual_cones n rows vs) (count_cones P n guesses).
(** ExponentialEhrhart.cpp:34-69 ConsumeCone *)
Definition ehrhart_consume_cone (P : params) (n : nat) (g w : list Z) (v : rvec) (d : bcone) (acc : list Q) : outcome (option (list Q)) :=
  match residue_weights g (s_rays (b_cone d)) with
  | Err Thrown => Ok None
  | Err e => Err e
  | Ok _ => bind (scalar_products (q_fuel2 P) (q_xg P) n (b_cone d) v g) (fun sps => ehrhart_consume n g (mkE (b_coef d) (s_rays (b_cone d)) sps (zdot g w)) acc)
  end.
(** ExponentialEhrhart.cpp:71-77 decomposeAndComputeEhrhartPolynomial in count.cpp *)
Definition ehrhart_polynomial (P : params) (n : nat) (guesses : list (list Z)) (rows : list (list Z)) (vs : list rvec) : outcome (list Q) :=
  bind (mapM (ehrhart_cone n rows) vs) (fun cones => decomposition_list P n (ehrhart_consume_cone P n) (repeat 0%Q (n + 1)) cones guesses).
