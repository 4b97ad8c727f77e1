(** Property theorems about exact integration over a simplex (C15-C18, C60). *)
From Coq Require Import QArith Qfield Qpower.
From Verif Require Import Common Rational RationalSpec Trie TrieSpec TrieProofs2 Integ IntegSpec IntegProofs IntegProofs5.
Open Scope Z_scope.

(** C17.  Power_ZZ for exponents below 2^20, AChooseB for all arguments. *)
Theorem powers_exact : forall a b, 0 <= b < 2 ^ 20 -> power_ZZ a b = Ok (a ^ b).
Proof. exact power_ZZ_ok. Qed.
Print Assumptions powers_exact.
Theorem binomials_exact : forall a b, choose (Z.of_nat a) (Z.of_nat b) = binom a b.
Proof. exact choose_ok. Qed.
Print Assumptions binomials_exact.
(** From 2^20 on the array of 20 binary digits is overrun. *)
Theorem powers_overrun_refuted : forall a b, 2 ^ 20 <= b -> power_ZZ a b = Err OutOfBounds.
Proof. exact power_ZZ_overflow. Qed.
Print Assumptions powers_overrun_refuted.
Example powers_sample : power_ZZ (-3) 13 = Ok (-1594323) /\ choose 30 22 = 5852925 /\ choose 5 9 = 0.
Proof. vm_compute. auto. Qed.

(** C18.  With x occurring k >= 2 times among the d+1 values xs, the residue is the
    coefficient of w^(k-1) in (x+w)^(m+d) / prod (x-b+w) over the other values b: the
    series G is any solution of G * prod (x-b+w) = (x+w)^(m+d). *)
Theorem residues_exact : forall d m xs x G, (2 <= occurrences x xs)%nat -> length xs = S d -> Z.of_nat (m + d) < 2 ^ 20 - 1 ->
  ~ (m = O /\ Forall (fun y => y = 0) xs) ->
  (forall j, (times_lins (other_diffs x xs) G j == power_coeff x (m + d) j)%Q) ->
  exists a b, compute_residue (Z.of_nat d) (Z.of_nat m) (map (fun y => x - y) xs) x = Ok (a, b) /\ b <> 0 /\
    (inject_Z a / inject_Z b == G (occurrences x xs - 1)%nat)%Q.
Proof. exact residue_exact. Qed.
Print Assumptions residues_exact.
(** xs = 2,5,2, m = 1: (2+w)^3/(-3+w) has w-coefficient -(12*3+8)/9. *)
Example residues_sample : compute_residue 2 1 (map (fun y => 2 - y) [2;5;2]) 2 = Ok (-44, 9) /\ occurrences 2 [2;5;2] = 2%nat.
Proof. vm_compute. auto. Qed.

(** C16.  The integral of a sum of powers of linear forms over a simplex: each term
    contributes coef * v/(m+d)! * h_m(values at the vertices); the denominator of the
    result is positive.  Excluded: degree 0 with the zero form (refuted below). *)
Theorem linear_forms_integral : forall s ts, length (s_vertices s) = S (s_dim s) -> (s_dim s < 1000)%nat -> ts <> [] ->
  Forall (fun t => 0 <= t_deg t /\ t_deg t + Z.of_nat (s_dim s) < 2 ^ 20 - 1 /\ lowest_terms (t_coef t) /\
    ~ (s_dim s <> O /\ t_deg t = 0 /\ Forall (fun v => dot (t_exps t) v = 0) (s_vertices s))) ts ->
  exists a b, integrate_forms ts s = Ok (a, b) /\ 0 < b /\
    (inject_Z a / inject_Z b == sum_over (fun t => value (t_coef t) * form_integral (s_vol s) (s_dim s) (s_vertices s) (t_exps t) (Z.to_nat (t_deg t))) ts)%Q.
Proof. exact integrate_exact. Qed.
Print Assumptions linear_forms_integral.
(** For pairwise different values h_m is the sum over the vertices of
    <l,s_i>^(m+d) / prod (<l,s_i> - <l,s_j>). *)
Theorem distinct_vertices_formula : forall xs m, NoDup xs -> xs <> [] ->
  (sum_over (fun v => inject_Z (v ^ Z.of_nat (m + (length xs - 1))) / inject_Z (fold_right Z.mul 1%Z (other_diffs v xs))) xs == inject_Z (hsym xs m))%Q.
Proof. exact distinct_formula. Qed.
Print Assumptions distinct_vertices_formula.
Definition triangle := mkSimplex 2 [[0;0];[3;0];[0;3]] 9.
Example linear_forms_sample :
  integrate_forms [mkTerm (mkRat 1 1) [1;2] 2; mkTerm (mkRat 5 2) [1;1] 3] triangle = Ok (351, 8) /\
  map (dot [1;2]) (s_vertices triangle) = [0;3;6] /\ map (dot [1;1]) (s_vertices triangle) = [0;3;3].
Proof. vm_compute. auto. Qed.
(** REFUTED for constants: the integral of the constant 1 over a triangle of area 9/2 is
    reported as 0; and with no terms at all the fraction is 0/0. *)
Theorem constant_integral_refuted :
  exists s, (s_dim s < 1000)%nat /\ s_dim s <> O /\ length (s_vertices s) = S (s_dim s) /\ 0 < s_vol s /\
    integrate_forms [mkTerm (mkRat 1 1) [0;0] 0] s = Ok (0, 1) /\
    (form_integral (s_vol s) (s_dim s) (s_vertices s) [0%Z;0%Z] 0 == 9 # 2)%Q /\ integrate_forms [] s = Ok (0, 0).
Proof. exists triangle. repeat split; try (vm_compute; congruence); cbn; lia. Qed.
Print Assumptions constant_integral_refuted.

(** C15.  For every polynomial (given by the inserted monomials, not cancelling to
    zero) the powers of linear forms produced by decompose satisfy
    sum coef * <l,x>^deg/deg! = polynomial at every rational point x; the degrees are
    the degrees of monomials. *)
Theorem linear_form_decomposition : forall n l, n <> O ->
  Forall (fun p => lowest_terms (fst p) /\ length (snd p) = n /\ Forall (fun e => 0 <= e) (snd p)) l ->
  (exists x, ~ (coef (input_poly l) x == 0)%Q) ->
  exists m ts f out, insert_all rat_add rat_zero (as_input l) (new_sum n) = Ok m /\ sum_terms rat_zero m = Ok ts /\
    decompose ts (new_sum n) = Ok f /\ sum_terms rat_zero f = Ok out /\ out <> [] /\
    Forall (fun t => ~ (value (t_coef t) == 0)%Q /\ exists e, In e (map snd l) /\ t_deg t = degree e) out /\
    forall x, length x = n -> (forms_at (forms_of out) x == poly_at (input_poly l) x)%Q.
Proof. exact decompose_identity. Qed.
Print Assumptions linear_form_decomposition.
Example linear_form_decomposition_sample :
  bind (decompose_term (mkRat 1 1) [2;1] (new_sum 2)) (fun m => bind (sum_terms rat_zero m) (fun l => Ok (map triple l))) =
  Ok [(mkRat 1 1, 3, [0;1]); (mkRat (-6) 1, 3, [1;0]); (mkRat (-2) 1, 3, [1;1]); (mkRat 1 1, 3, [2;1])].
Proof. vm_compute. reflexivity. Qed.
(** The zero polynomial: the iterator's first term is NULL and is dereferenced. *)
Theorem zero_polynomial_refuted :
  exists m, insert_all rat_add rat_zero (as_input [(mkRat 1 1, [1]); (mkRat (-1) 1, [1])]) (new_sum 1) = Ok m /\
    forall s, integrate_monomials m s = Err NullDeref.
Proof. eexists. split; [vm_compute; reflexivity|]. intros s. vm_compute. reflexivity. Qed.
Print Assumptions zero_polynomial_refuted.

(** C60.  integrateMonomialSum: for every linear functional J that integrates powers of
    linear forms of degree 1..D over the simplex, the result is J(polynomial), for every
    polynomial without constant term of degree at most D. *)
Theorem polynomial_integral : forall s J D l, s_dim s <> O -> (s_dim s < 1000)%nat -> length (s_vertices s) = S (s_dim s) ->
  linear_functional (s_dim s) J -> Z.of_nat (s_dim s) + D < 2 ^ 20 - 1 ->
  (forall f m, length f = s_dim s -> (1 <= m)%nat -> Z.of_nat m <= D ->
     (J (fun x => qdot f x ^ Z.of_nat m) == inject_Z (zfact m) * form_integral (s_vol s) (s_dim s) (s_vertices s) f m)%Q) ->
  Forall (fun p => lowest_terms (fst p) /\ length (snd p) = s_dim s /\ Forall (fun e => 0 <= e) (snd p) /\ 1 <= degree (snd p) <= D) l ->
  (exists x, ~ (coef (input_poly l) x == 0)%Q) ->
  exists m a b, insert_all rat_add rat_zero (as_input l) (new_sum (s_dim s)) = Ok m /\ integrate_monomials m s = Ok (a, b) /\ 0 < b /\
    (inject_Z a / inject_Z b == J (poly_at (input_poly l)))%Q.
Proof. exact integrate_polynomial. Qed.
Print Assumptions polynomial_integral.
(** Simpson's rule on the segment [1,3] is such a functional for D = 3. *)
Definition segment := mkSimplex 1 [[1];[3]] 2.
Definition simpson (f : list Q -> Q) : Q := ((f [1%Q] + 4 * f [2%Q] + f [3%Q]) / 3)%Q.
Example simpson_functional : linear_functional 1 simpson.
Proof.
  unfold linear_functional, simpson. split; [|split].
  - intros f g H. rewrite (H [1%Q] eq_refl), (H [2%Q] eq_refl), (H [3%Q] eq_refl). reflexivity.
  - intros f g. field.
  - intros c f. field.
Qed.
Example simpson_exact : forall f m, length f = 1%nat -> (1 <= m)%nat -> Z.of_nat m <= 3 ->
  (simpson (fun x => qdot f x ^ Z.of_nat m) == inject_Z (zfact m) * form_integral (s_vol segment) 1 (s_vertices segment) f m)%Q.
Proof.
  intros [|a [|b f]] m L M1 M2; try discriminate. assert (E : m = 1%nat \/ m = 2%nat \/ m = 3%nat) by lia.
  unfold simpson, form_integral, segment. cbn [qdot s_vol s_vertices map dot].
  assert (Q2 : forall q : Q, (q ^ 2 == q * q)%Q) by (intros; ring). assert (Q3 : forall q : Q, (q ^ 3 == q * q * q)%Q) by (intros; ring).
  destruct E as [E | [E | E]]; subst m; cbn [Z.of_nat Pos.of_succ_nat Pos.succ zfact Nat.add Nat.mul Nat.sub Nat.eqb hsym zsum];
    rewrite ?Q2, ?Q3, ?inject_Z_mult; repeat (rewrite ?inject_Z_plus, ?inject_Z_mult); unfold Z.pow, Z.pow_pos; cbn [Pos.iter];
    repeat (rewrite ?inject_Z_plus, ?inject_Z_mult); change (inject_Z 0) with 0%Q; change (inject_Z 1) with 1%Q; change (inject_Z 2) with 2%Q; change (inject_Z 3) with 3%Q; change (inject_Z 4) with 4%Q; field.
Qed.
(** The integral of 2x^3 - x over [1,3] is 36. *)
Example polynomial_sample :
  bind (insert_all rat_add rat_zero (as_input [(mkRat 2 1, [3]); (mkRat (-1) 1, [1])]) (new_sum 1)) (fun m => integrate_monomials m segment) = Ok (36, 1).
Proof. vm_compute. reflexivity. Qed.
