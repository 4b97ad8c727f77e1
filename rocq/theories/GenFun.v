(** Model of the multivariate generating function: count.cpp:472-500 (NoSubstitution),
    genFunction/maple.cpp:27-157, ProjectUp.cpp:106-200, ReadPolyhedron.cpp:776-790 and
    preprocess.cpp:519-549 (ProjU).
    Simplifications: the file is the text written to it; opening and closing it are not
    modelled.  Counters and memory management are not modelled.  What is written for a cone is
    computed after the decomposition of a simplicial cone (see Count.v).  Reading past the end
    of an NTL vector is OutOfBounds. *)
From Coq Require Import String QArith.
From Verif Require Import Common ZMat RatVec Piped Irrational Barvinok Rational Text Count.
Open Scope Z_scope.

(** maple.cpp:36-38, the factor of x[i]. *)
Definition write_power (i : nat) (e : Z) : text :=
  (if e <? 0 then lit "x[" ++ show_Z (Z.of_nat i) ++ lit "]^(" ++ show_Z e ++ lit ")" else
   if e =? 1 then lit "x[" ++ show_Z (Z.of_nat i) ++ lit "]" else
   lit "x[" ++ show_Z (Z.of_nat i) ++ lit "]^" ++ show_Z e)%list.
(** maple.cpp:32-40, the loop from variable i on; first is firstEntry == 0. *)
Fixpoint write_powers (i : nat) (v : list Z) (first : bool) : text :=
  match v with
  | [] => if first then lit "1" else []
  | e :: v' => if e =? 0 then write_powers (S i) v' first
               else ((if first then [] else lit "*") ++ write_power i e ++ write_powers (S i) v' false)%list
  end.
(** maple.cpp:27-45 writeTermToFile *)
Definition write_term (v : list Z) (n : nat) : outcome text :=
  if (length v <? n)%nat then Err OutOfBounds else Ok (write_powers 0 (firstn n v) true).
(** A cone with its lattice points: coefficient, rays, latticePoints. *)
Notation gcone := (Z * list (list Z) * list (list Z))%type.
(** The texts of a list, separated. *)
Fixpoint separated (sep : text) (l : list text) : text :=
  match l with [] => [] | [t] => t | t :: l' => (t ++ sep ++ separated sep l')%list end.
(** maple.cpp:47-81 writeTermOfGeneratingFunctionToFile *)
Definition write_cone (c : gcone) (n : nat) : outcome text :=
  let '(coef, rays, pts) := c in
  if coef =? 0 then Ok [] else
  bind (mapM (fun p => write_term p n) pts) (fun ps =>
  bind (mapM (fun r => write_term r n) rays) (fun rs =>
  Ok ((if coef =? 1 then [] else lit "(" ++ show_Z coef ++ lit ")*") ++
      (if (1 <? length pts)%nat then lit "(" ++ separated (lit "+") ps ++ lit ")" else separated (lit "+") ps) ++
      lit "/(" ++ separated (lit "*") (map (fun r => lit "(1-" ++ r ++ lit ")") rs) ++ lit ")")%list)).
(** maple.cpp:83-110 createGeneratingFunctionAsMapleInput; the text of the file. *)
Definition newline : text := [ascii_of_nat 10].
Definition write_list (cones : list gcone) (n : nat) : outcome text :=
  match cones with
  | [] => Err NullDeref
  | _ => bind (mapM (fun c => write_cone c n) cones) (fun ts => Ok (lit "gF:=" ++ separated (lit "+") ts ++ lit ";" ++ newline)%list)
  end.
(** maple.cpp:145-157 GeneratingFunctionWritingConeConsumer::ConsumeCone; the state is the
    text written and first_term. *)
Definition write_consume (c : gcone) (st : text * bool) : outcome (text * bool) :=
  match snd c with
  | [] => Ok st
  | p :: _ => bind (write_cone c (length p)) (fun t => Ok ((fst st ++ (if snd st then [] else lit " + ") ++ t ++ newline)%list, false))
  end.

(** ProjectUp.cpp:106-194 ProjectUp2 for one cone; d is oldNumOfVars.  newVector starts as b,
    so it has the length of b. *)
Definition project_point (d : nat) (AA : list (list Z)) (b : list Z) (p : list Z) : list Z := map (fun i => nth i b 0 + zdot (nth i AA []) p) (seq 0 d).
Definition project_ray (d : nat) (AA : list (list Z)) (r : list Z) : list Z := map (fun i => zdot (nth i AA []) r) (seq 0 d).
Definition project_up (d : nat) (AA : list (list Z)) (b : list Z) (c : gcone) : outcome gcone :=
  let '(coef, rays, pts) := c in
  match pts with
  | [p] => if (length b <? d)%nat || (length AA <? d)%nat then Err OutOfBounds else Ok (coef, map (project_ray d AA) rays, [project_point d AA b p])
  | _ => Err AssertFail
  end.
(** A projecting-up transducer: oldNumOfVars, AA, b. *)
Notation projector := (nat * list (list Z) * list Z)%type.
(** count.cpp:485-491 without the computation of the points: what happens to a cone with its
    points. *)
Definition deliver (pj : option projector) (c : gcone) (st : text * bool) : outcome (text * bool) :=
  match pj with
  | None => write_consume c st
  | Some (d, AA, b) => bind (project_up d AA b c) (fun c' => write_consume c' st)
  end.
(** PointsInParallelepipedComputingConeTransducer (dec.cpp, computePointsInParallelepiped). *)
Definition pointed (P : params) (n : nat) (v : rvec) (d : bcone) : outcome gcone :=
  bind (points (q_fuel2 P) (q_xg P) n (b_cone d) v) (fun ps => Ok (b_coef d, s_rays (b_cone d), ps)).
Definition write_one (P : params) (n : nat) (pj : option projector) (w : list Z) (v : rvec) (d : bcone) (st : text * bool) : outcome (option (text * bool)) :=
  bind (pointed P n v d) (fun c => bind (deliver pj c st) (fun st' => Ok (Some st'))).
(** count.cpp:493-496; every call of the caller's function returns 1. *)
Definition generating_cones (P : params) (n : nat) (pj : option projector) (cones : list vcone) : outcome text :=
  bind (cones_loop P n (fun _ => 1) (write_one P n pj) cones ([], true)) (fun o => match o with Some st => Ok (fst st) | None => Ok [] end).
(** count.cpp, dual and irrational primal decomposition. *)
Definition generating_function (P : params) (n : nat) (pj : option projector) (rows : list (list Z)) (vs : list rvec) : outcome text :=
  bind (dual_cones n rows vs) (generating_cones P n pj).

(** preprocess.cpp:519-549: ProjU has the particular solution in column 0 and the basis
    vectors in the others; ReadPolyhedron.cpp:776-790: bb and AA. *)
Definition lifting (n : nat) (particular : list Z) (basis : list (list Z)) : projector :=
  (n, map (fun i => map (fun g => nth i g 0) basis) (seq 0 n), map (fun i => nth i particular 0) (seq 0 n)).
