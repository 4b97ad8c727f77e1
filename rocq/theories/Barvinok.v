(** Model of the signed decomposition of simplicial cones (code/latte/barvinok/barvinok.cpp).
    Simplifications: the vertex is the same for a cone and all its descendants (it is copied,
    lines 232, 391), so it is a parameter; the short vector of ComputeOmega (LLL, floating
    choices) and the kernel vector of NTL's image() are parameters [omega] and [ker];
    SHOWDETS/SHOWCONES output, timers and memory management are not modelled. *)
From Verif Require Import Common ZMat Hermite Det RatVec Piped Irrational.
Open Scope Z_scope.

(** barvinok.h: DecompositionType, ShortVectorType. *)
Inductive decomposition := DualDecomposition | IrrationalPrimalDecomposition | IrrationalAllPrimalDecomposition.
Inductive shortvector := LatteLLL | SubspaceAvoidingLLL.
(** The fields of listCone involved: coefficient and those of [scone]. *)
Record bcone := mkB { b_coef : Z; b_cone : scone }.

(** dual.cpp:152-164: both representations known, so swap. *)
Definition swap_cone (c : scone) : scone := mkCone (s_dual_det c) (s_det c) (s_facets c) (s_rays c) (s_divs c).
(** Row i of the rays replaced by z (barvinok.cpp:286-294, 375-384). *)
Definition replace_ray (rays : list (list Z)) (i : nat) (z : list Z) : list (list Z) := upd rays i z.

(** barvinok.cpp:149-183 CheckOmega: row 0 of the transformation matrix returned by image()
    is a relation between z and the rays. *)
Definition check_omega (ker : list (list Z) -> list Z) (n : nat) (rays : list (list Z)) (z : list Z) : list Z :=
  let r := ker (z :: rays) in
  if forallb (fun i => 0 <=? nth i r 0) (seq 0 (n + 1)) || forallb (fun i => nth i r 0 <=? 0) (seq 0 (n + 1))
  then map Z.opp z else z.
(** barvinok.cpp:279-301 computeAndCheckDeterminants.  On failure the caller does not use the
    determinants, so that some may not have been computed does not matter. *)
Definition replaced_dets (n : nat) (rays : list (list Z)) (z : list Z) : list Z := map (fun i => det n (ent (replace_ray rays i z))) (seq 0 n).
Definition dets_decrease (d : Z) (dets : list Z) : bool := forallb (fun x => Z.abs x <? Z.abs d) dets.

(** barvinok.cpp:368-397: the children. *)
Fixpoint children (n : nat) (coef d : Z) (rays : list (list Z)) (z : list Z) (i : nat) (dets : list Z) : outcome (list (option bcone)) :=
  match dets with
  | [] => Ok []
  | di :: ds =>
      bind (if di =? 0 then Ok None
            else bind (det_and_facets n (replace_ray rays i z)) (fun c => Ok (Some (mkB (coef * Z.sgn d * Z.sgn di) c)))) (fun ch =>
      bind (children n coef d rays z (S i) ds) (fun r => Ok (ch :: r)))
  end.
(** barvinok.cpp:310-399 barvinokStep; None is the return value false.  [omega l] is
    ComputeOmega(generator, dual, m, l, l), [omega 0] also ComputeShortVectorAvoidingSubspace. *)
Definition step (sv : shortvector) (omega : nat -> list (list Z) -> list Z) (ker : list (list Z) -> list Z) (n : nat) (c : bcone) : outcome (option (list (option bcone) * list Z)) :=
  let rays := s_rays (b_cone c) in
  let d := s_det (b_cone c) in
  bind (facet_matrix (b_cone c)) (fun _ =>
  let z := check_omega ker n rays (omega 0%nat rays) in
  let dets := replaced_dets n rays z in
  if dets_decrease d dets then bind (children n (b_coef c) d rays z 0 dets) (fun ch => Ok (Some (ch, dets)))
  else
    match sv with
    | SubspaceAvoidingLLL => Ok None
    | LatteLLL =>
        let z := check_omega ker n rays (omega 2%nat rays) in
        let dets := replaced_dets n rays z in
        if dets_decrease d dets then bind (children n (b_coef c) d rays z 0 dets) (fun ch => Ok (Some (ch, dets)))
        else Err AssertFail
    end).

(** Single_Cone_Parameters: the counters, and the cones passed to ConsumeCone in order. *)
Record bstate := mkSt { delivered : list bcone; total_uni : Z; cur_depth : Z; max_depth : Z; cur_total : Z; max_total : Z }.
(** The caller's ConsumeCone: its return value may depend on the cones seen before. *)
Notation consumer := (list bcone -> bcone -> Z).

(** barvinok.cpp:401-424 deliver_cone *)
Definition deliver (mode : decomposition) (cons : consumer) (c : bcone) (st : bstate) : Z * bstate :=
  let c' := match mode with DualDecomposition => mkB (b_coef c) (swap_cone (b_cone c)) | _ => c end in
  (cons (delivered st) c', mkSt (delivered st ++ [c']) (total_uni st + 1) (cur_depth st) (max_depth st) (cur_total st) (max_total st)).
(** barvinok.cpp:426-439 criterion_abs_det *)
Definition criterion (mode : decomposition) (c : bcone) : Z :=
  match mode with DualDecomposition => Z.abs (s_dual_det (b_cone c)) | _ => Z.abs (s_det (b_cone c)) end.
(** Irrational.cpp:372-381 checkConeIrrational, in the cases of barvinok.cpp:452-462, 509-519. *)
Definition check_irrational (mode : decomposition) (n : nat) (v : rvec) (c : bcone) : outcome unit :=
  match mode with
  | DualDecomposition => Ok tt
  | _ => bind (is_irrational n (b_cone c) v) (fun b => if b then Ok tt else Err Thrown)
  end.
Fixpoint check_children (mode : decomposition) (n : nat) (v : rvec) (l : list (option bcone)) : outcome unit :=
  match l with
  | [] => Ok tt
  | None :: l' => check_children mode n v l'
  | Some c :: l' => bind (check_irrational mode n v c) (fun _ => check_children mode n v l')
  end.
(** barvinok.cpp:535-543: the smallest remaining determinant, first index on ties. *)
Fixpoint scan (l : list Z) (j : nat) (mn : Z) (cur : option nat) : option nat :=
  match l with
  | [] => cur
  | d :: l' => if (d <? mn) && negb (d =? 0) then scan l' (S j) d (Some j) else scan l' (S j) mn cur
  end.
(** barvinok.cpp:534-550, the do-while loop; every round but the last clears a determinant. *)
Fixpoint loop (rec : bcone -> bstate -> outcome (Z * bstate)) (k : nat) (mx : Z) (dets : list Z) (cones : list (option bcone)) (st : bstate) : outcome (Z * bstate) :=
  match k with
  | O => Err OutOfFuel
  | S k' =>
      match scan dets 0 (mx + 1) None with
      | None => Ok (1, st)
      | Some j =>
          match nth j cones None with
          | None => Err NullDeref
          | Some c =>
              bind (rec c st) (fun '(r, st1) =>
              let st2 := mkSt (delivered st1) (total_uni st1) (cur_depth st1) (max_depth st1) (cur_total st1 - 1) (max_total st1) in
              if r =? -1 then Ok (-1, st2) else loop rec k' mx (upd dets j 0) cones st2)
          end
      end
  end.
(** barvinok.cpp:441-554 barvinok_DFS *)
Fixpoint dfs (fuel : nat) (mode : decomposition) (sv : shortvector) (omega : nat -> list (list Z) -> list Z) (ker : list (list Z) -> list Z)
  (max_det : Z) (n : nat) (v : rvec) (cons : consumer) (c : bcone) (st : bstate) : outcome (Z * bstate) :=
  match fuel with
  | O => Err OutOfFuel
  | S f =>
      let st := mkSt (delivered st) (total_uni st) (cur_depth st) (Z.max (max_depth st) (cur_depth st)) (cur_total st) (max_total st) in
      let a := criterion mode c in
      if a =? 0 then Ok (1, st)
      else bind (check_irrational mode n v c) (fun _ =>
      if (max_det =? 0) || (a <=? max_det) then Ok (deliver mode cons c st)
      else bind (step sv omega ker n c) (fun r =>
      match r with
      | None => if a <=? 200000 then Ok (deliver mode cons c st) else Err Exited
      | Some (ch, dets) =>
          let ds := map Z.abs dets in
          let mx := fold_left Z.max ds (-1) in
          let nz := Z.of_nat (length (filter (fun x => 0 <? x) ds)) in
          bind (check_children mode n v ch) (fun _ =>
          let ct := cur_total st + nz in
          let st1 := mkSt (delivered st) (total_uni st) (cur_depth st + 1) (max_depth st) ct (Z.max ct (max_total st)) in
          bind (loop (dfs f mode sv omega ker max_det n v cons) (S n) mx ds ch st1) (fun '(res, st2) =>
          Ok (res, mkSt (delivered st2) (total_uni st2) (cur_depth st2 - 1) (max_depth st2) (cur_total st2) (max_total st2))))
      end))
  end.

(** barvinok.cpp:186-198 MatrixGCD: rows divided by the gcd of their entries. *)
Definition matrix_gcd (B : list (list Z)) : list (list Z) :=
  map (fun r => let g := fold_left Z.gcd r 0 in map (fun x => if x =? 0 then x else x / g) r) B.
(** barvinok.cpp:206-267 barvinok_Single; the vertex returned is that of the cones passed on. *)
Definition single (fuel depth : nat) (mode : decomposition) (sv : shortvector) (omega : nat -> list (list Z) -> list Z) (ker : list (list Z) -> list Z)
  (max_det : Z) (n : nat) (v : rvec) (cons : consumer) (B : list (list Z)) (st : bstate) : outcome (rvec * (Z * bstate)) :=
  if negb ((length B =? n)%nat && forallb (fun r => (length r =? n)%nat) B) then Err Exited
  else if det n (ent B) =? 0 then Err Exited
  else bind (det_and_facets n (matrix_gcd B)) (fun c =>
       let go v c := bind (dfs fuel mode sv omega ker max_det n v cons (mkB 1 c) st) (fun r => Ok (v, r)) in
       match mode with
       | DualDecomposition | IrrationalAllPrimalDecomposition => go v c
       | IrrationalPrimalDecomposition => let c' := swap_cone c in bind (irrationalize depth n c' v) (fun nv => go nv c')
       end).
