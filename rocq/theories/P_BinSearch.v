(** Property theorems about integer programming by binary search (C34). *)
From Coq Require Import QArith Qround.
From Verif Require Import Common BinSearch BinSearchSpec BinSearchProofs.
Open Scope Z_scope.

(** C34, maximisation.  For every feasible problem with finitely many integer points,
    every pair of bounds on the cost and every correct counter, the search ends, prints
    the maximum of the cost over the integer points, returns the number of optimal
    points, and uses at most ceil(log2(range)) counting calls. *)
Theorem binary_search_finds_maximum :
  forall n count m q cost pts, counts_correctly n count m q -> finite_ip m q n pts ->
  forall lo hi fuel, lp_bounds m q n cost lo hi -> pts <> [] ->
  Qceiling hi + 1 - Qceiling lo <= Z.of_nat fuel ->
  exists a, binary_search count m q cost fuel lo hi false = Ok a /\ is_max_value m q n cost (printed a) /\
    number a = Z.of_nat (length (filter (fun x => zdot cost x =? printed a) pts)) /\
    0 <= iterations a /\
    (forall j, Qceiling hi + 1 - Qceiling lo <= 2 ^ Z.of_nat j -> iterations a <= Z.of_nat j).
Proof. exact max_mode. Qed.
Print Assumptions binary_search_finds_maximum.

(** C34, minimisation (the callers pass the negated cost): the printed value is the
    minimum unless the optimum equals the (rounded-up) LP bound. *)
Theorem binary_search_finds_minimum_partial :
  forall n count m q ucost pts, counts_correctly n count m q -> finite_ip m q n pts ->
  forall lo hi fuel, lp_bounds m q n (map Z.opp ucost) lo hi -> pts <> [] ->
  Qceiling hi + 1 - Qceiling lo <= Z.of_nat fuel ->
  exists a v, binary_search count m q (map Z.opp ucost) fuel lo hi true = Ok a /\ is_min_value m q n ucost v /\
    number a = Z.of_nat (length (filter (fun x => zdot ucost x =? v) pts)) /\
    printed a = (if - v =? Qceiling hi then - v else v).
Proof. exact min_mode. Qed.
Print Assumptions binary_search_finds_minimum_partial.

(** ... and in that case the sign is wrong: minimising x over {1,2} prints -1. *)
Theorem binary_search_minimum_sign_refuted :
  exists count pts cost lo hi fuel a,
  counts_correctly 1 count [] seg /\ finite_ip [] seg 1 pts /\ lp_bounds [] seg 1 (map Z.opp cost) lo hi /\
  binary_search count [] seg (map Z.opp cost) fuel lo hi true = Ok a /\
  is_min_value [] seg 1 cost 1 /\ printed a = -1.
Proof. exact min_sign_witness. Qed.
Print Assumptions binary_search_minimum_sign_refuted.

(** Feasibility is needed: an infeasible problem still gets an "optimal value". *)
Theorem binary_search_infeasible_prints_value :
  exists count lo hi fuel a,
  counts_correctly 1 count [[1; -2]] infeas /\ finite_ip [[1; -2]] infeas 1 [] /\
  binary_search count [[1; -2]] infeas [1] fuel lo hi false = Ok a /\ number a = 0 /\ printed a = 0 + 1.
Proof. exact infeasible_witness. Qed.
Print Assumptions binary_search_infeasible_prints_value.

(** The generated files say what they should. *)
Theorem search_files_select_cost_levels :
  forall m q n rhs cost x,
  ((length x = n /\ file_holds (file_ge m q rhs cost) x) <-> (ip_point m q n x /\ rhs <= zdot cost x)) /\
  ((length x = n /\ file_holds (file_equ m q rhs cost) x) <-> (ip_point m q n x /\ zdot cost x = rhs)).
Proof. intros. exact (conj (file_ge_meaning _ _ _ _ _ _) (file_equ_meaning _ _ _ _ _ _)). Qed.
Print Assumptions search_files_select_cost_levels.

Example binary_search_demo :
  match binary_search (brute_count [[0]; [1]; [2]; [3]]) [] [[0; 1]; [3; -1]] [2] 10 (0 # 1) (13 # 2) false with
  | Ok a => printed a = 6 /\ number a = 1 /\ iterations a = 3 | Err _ => False end.
Proof. vm_compute. repeat split. Qed.
