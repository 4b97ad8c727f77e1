(** Model of the "digging" algorithm of latte-maximize and latte-minimize: class ConeInfo (ConeInfo.cpp:471-1020,
    1338-1413), Calculate_Pertubation (ConeInfo.cpp:1415-1500) and SolveIP (IntegralHull.cpp:129-470).
    Simplified: the C int entries of the exponent vectors and the int coefficients are unbounded; the hash
    table that keeps a level free of repetitions (ConeInfo.cpp:757-760, 820-892, 1391-1413) is a membership test, so
    levels with more than HASH_TABLE_SIZE vectors (where the probing would not end) are not distinguished;
    SINGLE_CONE is 0; Verify_IP_Flag, which only prints, is left out. *)
From Verif Require Import Common DigHeap.
Open Scope Z_scope.

(** NTL's inner product of vectors of the same length. *)
Fixpoint idot (a b : list Z) : Z := match a, b with x :: a', y :: b' => x * y + idot a' b' | _, _ => 0 end.

(** A cone of the decomposition: coefficient, rays, the single lattice point (latticePoints->first). *)
Record dcone := mkDcone { dc_coef : Z; dc_rays : list (list Z); dc_point : list Z }.
(** An entry of a Vector_Heap: Sum_Vector and Total_Sum. *)
Notation ventry := (list Z * Z)%type.
(** ConeInfo.h:83-152 *)
Record cinfo := mkCinfo {
  ci_cone : dcone;              (* listCone_ptr *)
  ci_zero : bool;               (* S_Values_Zero_Flag *)
  ci_numer : Z;                 (* Numer_Exp *)
  ci_signs : list Z;            (* signs, in the order of the rays *)
  ci_sorted : list (Z * nat);   (* S_Values and Order after Sort_S_Values *)
  ci_coef : Z;                  (* Coefficient *)
  ci_cur : Z;                   (* Current_Highest_Term *)
  ci_level : list (list Z);     (* Vector_List_Head *)
  ci_heap : heap ventry }.      (* Heap *)

(** ConeInfo.cpp:679-690: one inner loop of the bubble sort, m comparisons from the front, larger values first *)
Fixpoint bubble (m : nat) (l : list (Z * nat)) : list (Z * nat) :=
  match m, l with
  | S m', x :: y :: t => if fst x <? fst y then y :: bubble m' (x :: t) else x :: bubble m' (y :: t)
  | _, _ => l
  end.
(** ConeInfo.cpp:678: for (i = 0; i < n - 1; i++), the inner loop does n - i - 1 comparisons *)
Fixpoint bubbles (m : nat) (l : list (Z * nat)) : list (Z * nat) :=
  match m with O => l | S m' => bubbles m' (bubble m l) end.
(** ConeInfo.cpp:667-692 Sort_S_Values *)
Definition sort_values (ss : list Z) : list (Z * nat) := bubbles (length ss - 1) (combine ss (seq 0 (length ss))).

(** ConeInfo.cpp:498-530: the numerator exponent, the coefficient, and for every ray its (nonpositive) value and sign *)
Fixpoint dots (cost : list Z) (rays : list (list Z)) (numer coef : Z) : Z * Z * list Z * list Z * bool :=
  match rays with
  | [] => (numer, coef, [], [], false)
  | r :: rays' =>
      let s := idot cost r in
      let '(numer', coef') := if 0 <? s then (numer - s, - coef) else (numer, coef) in
      let '(nu, co, ss, sg, z) := dots cost rays' numer' coef' in
      (nu, co, (if 0 <? s then - s else s) :: ss, (if 0 <? s then 1 else -1) :: sg, (s =? 0) || z)
  end.
Fixpoint unit_vec (d i : nat) : list Z := match d with O => [] | S d' => match i with O => 1 :: repeat 0 d' | S i' => 0 :: unit_vec d' i' end end.
(** ConeInfo.cpp:471-623, the constructor *)
Definition new_info (cost : list Z) (c : dcone) : outcome cinfo :=
  let '(nu, co, ss, sg, z) := dots cost (dc_rays c) (idot (dc_point c) cost) (dc_coef c) in
  let srt := sort_values ss in
  match srt with
  | [] => Err OutOfBounds                       (* zero_vector[0], S_Values[0] *)
  | (s0, _) :: _ =>
      bind (add_heap snd (unit_vec (length ss) 0, s0) empty_heap) (fun h =>
      Ok (mkCinfo c z nu sg srt co nu [repeat 0 (length ss)] h))
  end.

(** First_Non_Zero (ConeInfo.cpp:776-787, 926-936); None is the value -1 *)
Fixpoint first_nonzero (v : list Z) : option nat :=
  match v with [] => None | x :: v' => if x =? 0 then option_map S (first_nonzero v') else Some 0%nat end.
Definition add_at (v : list Z) (i : nat) (k : Z) : list Z := upd v i (nth i v 0 + k).
(** ConeInfo.cpp:762-806, 905-952: the two vectors put into the heap for a vector of the level *)
Definition successors (ss : list Z) (e : Z) (v : list Z) : outcome (list ventry) :=
  match first_nonzero v with
  | None => Err OutOfBounds
  | Some i =>
      let up := (add_at v 0 1, e + nth 0 ss 0) in
      if Nat.eqb i (length ss - 1) then Ok [up]
      else Ok [up; (add_at (add_at v i (-1)) (S i) 1, e - nth i ss 0 + nth (S i) ss 0)]
  end.
Fixpoint add_entries (l : list ventry) (h : heap ventry) : outcome (heap ventry) :=
  match l with [] => Ok h | x :: l' => bind (add_heap snd x h) (add_entries l') end.
Definition vec_eqb (u v : list Z) : bool := if list_eq_dec Z.eq_dec u v then true else false.
(** ConeInfo.cpp:813-955: the other vectors of the level.  One pass per fuel unit. *)
Fixpoint level_loop (fuel : nat) (ss : list Z) (e : Z) (level : list (list Z)) (coef : Z) (h : heap ventry) : outcome (list (list Z) * Z * heap ventry) :=
  match fuel with
  | O => Err OutOfFuel
  | S f =>
      if check_top snd e h then
        bind (pop_heap snd h) (fun o =>
        match o with
        | None => Err NullDeref
        | Some ((v, _), h1) =>
            if existsb (vec_eqb v) level then level_loop f ss e level coef h1
            else bind (successors ss e v) (fun l => bind (add_entries l h1) (fun h2 =>
                 level_loop f ss e (v :: level) (if 0 <? coef then coef + 1 else coef - 1) h2))
        end)
      else Ok (level, coef, h)
  end.
(** ConeInfo.cpp:695-1020 Calculate_Next_Highest_Term *)
Definition next_term (fuel : nat) (ci : cinfo) : outcome cinfo :=
  if ci_zero ci then Err Exited
  else
    let ss := map fst (ci_sorted ci) in
    bind (pop_heap snd (ci_heap ci)) (fun o =>
    match o with
    | None => Err OutOfBounds                   (* a message, then an uninitialised array *)
    | Some ((v, e), h1) =>
        bind (successors ss e v) (fun l => bind (add_entries l h1) (fun h2 =>
        bind (level_loop fuel ss e [v] (if ci_coef ci <? 0 then -1 else 1) h2) (fun '(level, coef, h3) =>
        Ok (mkCinfo (ci_cone ci) (ci_zero ci) (ci_numer ci) (ci_signs ci) (ci_sorted ci) coef (ci_numer ci + e) level h3))))
    end).

Fixpoint vminus (u v : list Z) : list Z := match u, v with x :: u', y :: v' => (x - y) :: vminus u' v' | _, _ => [] end.
(** temp_coefficients[Order[i]] = Integer_Array[i] (ConeInfo.cpp:1369-1370), read at index j *)
Fixpoint coefficient_of (j : nat) (srt : list (Z * nat)) (v : list Z) : Z :=
  match srt, v with (_, i) :: srt', x :: v' => if Nat.eqb i j then x else coefficient_of j srt' v' | _, _ => 0 end.
(** ConeInfo.cpp:1348-1384 Calculate_Integral_Point for the vector v of the level *)
Fixpoint shift_point (rays : list (list Z)) (signs : list Z) (p : list Z) : list Z :=
  match rays, signs with r :: rays', s :: signs' => shift_point rays' signs' (if 0 <? s then vminus p r else p) | _, _ => p end.
Fixpoint move_point (rays : list (list Z)) (signs : list Z) (j : nat) (srt : list (Z * nat)) (v : list Z) (p : list Z) : list Z :=
  match rays, signs with
  | r :: rays', s :: signs' => move_point rays' signs' (S j) srt v (vminus p (map (fun x => s * x * coefficient_of j srt v) r))
  | _, _ => p
  end.
Definition integral_point (ci : cinfo) (v : list Z) : list Z :=
  let rays := dc_rays (ci_cone ci) in
  move_point rays (ci_signs ci) 0 (ci_sorted ci) v (shift_point rays (ci_signs ci) (dc_point (ci_cone ci))).

(** ConeInfo.cpp:1443-1470: Maximum_Coordinate; note that a negative entry replaces it by itself *)
Definition max_entry (m x : Z) : Z :=
  let m' := if (0 <=? x) && (m <? x) then x else m in
  if (x <=? 0) && (m' <? - x) then x else m'.
Definition max_coordinate (cones : list dcone) : Z := fold_left (fun m c => fold_left (fun m r => fold_left max_entry r m) (dc_rays c) m) cones 0.
(** ConeInfo.cpp:1473-1497: M = 2*(Mod_Value*Maximum_Coordinate*Number_of_Variables) + 1 with Mod_Value 10
    (IntegralHull.cpp:203); [r] are the values (rand () % 10) * ((rand () % 2)*2 - 1), at most 9 in absolute value *)
Definition perturb_factor (n : nat) (cones : list dcone) : Z := 2 * (10 * max_coordinate cones * Z.of_nat n) + 1.
Fixpoint perturb_with (m : Z) (cost r : list Z) : list Z := match cost, r with x :: cost', y :: r' => (m * x + y) :: perturb_with m cost' r' | _, _ => [] end.

Definition cone_key (ci : cinfo) : Z := ci_cur ci.
Fixpoint infos (cost : list Z) (cones : list dcone) : outcome (list cinfo) :=
  match cones with [] => Ok [] | c :: cones' => bind (new_info cost c) (fun ci => bind (infos cost cones') (fun l => Ok (ci :: l))) end.
Fixpoint add_cones (l : list cinfo) (h : heap cinfo) : outcome (heap cinfo) :=
  match l with [] => Ok h | x :: l' => bind (add_heap cone_key x h) (add_cones l') end.
(** IntegralHull.cpp:167-213: all cones go into the heap; when one of them has a zero dot product the heap is
    cleared and everything starts again with a perturbation of the given cost.  One start per fuel unit;
    [rnd k] is the random vector of the k-th perturbation. *)
Fixpoint prepare (fuel : nat) (n : nat) (rnd : nat -> list Z) (k : nat) (given cost : list Z) (cones : list dcone) : outcome (list Z * heap cinfo) :=
  match fuel with
  | O => Err OutOfFuel
  | S f =>
      bind (infos cost cones) (fun l =>
      if existsb ci_zero l then prepare f n rnd (S k) given (perturb_with (perturb_factor n cones) given (rnd k)) cones
      else bind (add_cones l empty_heap) (fun h => Ok (cost, h)))
  end.

(** IntegralHull.cpp:252-263: pop every cone whose Current_Highest_Term is that of the first one *)
Fixpoint pop_equal (fuel : nat) (k : Z) (h : heap cinfo) : outcome (list cinfo * heap cinfo) :=
  match fuel with
  | O => Err OutOfFuel
  | S f =>
      if check_top cone_key k h then
        bind (pop_heap cone_key h) (fun o =>
        match o with
        | None => Err NullDeref
        | Some (ci, h1) => bind (pop_equal f k h1) (fun '(l, h2) => Ok (ci :: l, h2))
        end)
      else Ok ([], h)
  end.
(** IntegralHull.cpp:283-297: dig every popped cone and put it back *)
Fixpoint dig_all (fuel : nat) (l : list cinfo) (h : heap cinfo) : outcome (heap cinfo) :=
  match l with
  | [] => Ok h
  | ci :: l' => bind (next_term fuel ci) (fun ci' => bind (add_heap cone_key ci' h) (fun h' => dig_all fuel l' h'))
  end.
Definition coef_sum (l : list cinfo) : Z := fold_right (fun ci s => ci_coef ci + s) 0 l.
(** IntegralHull.cpp:307-325: push_front of every point of every popped cone *)
Definition candidates (l : list cinfo) : list (list Z) := rev (flat_map (fun ci => map (integral_point ci) (ci_level ci)) l).
(** IntegralHull.cpp:335-345: matrix rows are (b, a) with b + a x >= 0 *)
Definition row_ok (x row : list Z) : bool := match row with [] => false | b :: a => 0 <=? b + idot a x end.
Definition feasible (matrix : list (list Z)) (x : list Z) : bool := forallb (row_ok x) matrix.
(** IntegralHull.cpp:234-398, the main loop: the optimal point and Coefficient_Sum *)
Fixpoint dig_loop (fuel : nat) (matrix : list (list Z)) (h : heap cinfo) : outcome (list Z * Z) :=
  match fuel with
  | O => Err OutOfFuel
  | S f =>
      bind (pop_heap cone_key h) (fun o =>
      match o with
      | None => Err NullDeref
      | Some (ci, h1) =>
          bind (pop_equal (S (length (values (h_root h1)))) (ci_cur ci) h1) (fun '(l, h2) =>
          let popped := ci :: l in
          if coef_sum popped =? 0 then bind (dig_all f popped h2) (dig_loop f matrix)
          else match find (feasible matrix) (candidates popped) with
               | Some x => Ok (x, coef_sum popped)
               | None => Err Exited
               end)
      end)
  end.
(** IntegralHull.cpp:129-470 SolveIP with SINGLE_CONE = 0: the optimal point, the printed number of optimal
    solutions and the cost that was used *)
Definition solve_ip (fuel : nat) (rnd : nat -> list Z) (cones : list dcone) (matrix : list (list Z)) (cost : list Z) (n : nat) : outcome (list Z * Z * list Z) :=
  bind (prepare fuel n rnd 0 cost cost cones) (fun '(used, h) =>
  bind (dig_loop fuel matrix h) (fun '(x, k) => Ok (x, k, used))).
(** maximize.cpp:266, 480; minimize.cpp:267, 483-484: latte-minimize gives SolveIP the negated cost *)
Definition maximize (fuel : nat) rnd cones matrix cost n := solve_ip fuel rnd cones matrix cost n.
Definition minimize (fuel : nat) rnd cones matrix cost n := solve_ip fuel rnd cones matrix (map Z.opp cost) n.
