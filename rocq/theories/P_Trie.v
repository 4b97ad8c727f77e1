(** Property theorems about the burst trie and its clients (C10, C13, C59). *)
From Coq Require Import QArith Sorting.Sorted.
From Verif Require Import Common Rational RationalSpec RationalProofs Trie TrieSpec TrieProofs TrieProofs2.
Open Scope Z_scope.

(** C10.  After any insertions of terms with [n] variables of which at least one has a
    non-zero coefficient, iterating ends and delivers every (degree, exponents) once,
    with non-zero canonical coefficients; the delivered coefficient of each (degree,
    exponents) is the sum of the inserted ones (0 if it is not delivered); for
    monomials (one degree) the order is strictly increasing. *)
Theorem trie_is_a_finite_map : forall n l, n <> O ->
  Forall (fun p => lowest_terms (fst (fst p)) /\ length (snd p) = n) l ->
  (exists p, In p l /\ ~ (value (fst (fst p)) == 0)%Q) ->
  exists m out, insert_all rat_add rat_zero l (new_sum n) = Ok m /\ sum_terms rat_zero m = Ok out /\
    NoDup (map (fun t => (t_deg t, t_exps t)) out) /\
    Forall (fun t => lowest_terms (t_coef t) /\ ~ (value (t_coef t) == 0)%Q) out /\
    (forall d x, (coefficient (map triple out) d x == coefficient l d x)%Q) /\
    ((exists d, Forall (fun p => snd (fst p) = d) l) -> StronglySorted (fun a b => lex_lt (t_exps a) (t_exps b)) out).
Proof. exact trie_exact. Qed.
Print Assumptions trie_is_a_finite_map.

(** The same for any coefficient type with a zero test (big integers, ...): the delivered
    coefficient is the combination, in insertion order, of the non-zero ones. *)
Theorem trie_is_a_finite_map_any_coefficients :
  forall (T : Type) (tadd : T -> T -> T) (tzero : T -> bool) n (l : list (T * Z * list Z)), n <> O ->
  Forall (fun p => length (snd p) = n) l -> filter (fun p => negb (tzero (fst (fst p)))) l <> [] ->
  exists m out, insert_all tadd tzero l (new_sum n) = Ok m /\ ms_terms m = length (filter (fun p => negb (tzero (fst (fst p)))) l) /\ sum_terms tzero m = Ok out /\
    NoDup (map (fun t => (t_deg t, t_exps t)) out) /\
    (forall d x c, In (mkTerm c x d) out <-> combined tadd (filter (fun p => negb (tzero (fst (fst p)))) l) d x = Some c /\ tzero c = false) /\
    ((exists d, Forall (fun p => snd (fst p) = d) l) -> StronglySorted (fun a b => lex_lt (t_exps a) (t_exps b)) out).
Proof. exact @trie_map. Qed.
Print Assumptions trie_is_a_finite_map_any_coefficients.

(** With nothing but zero coefficients inserted the iteration dereferences NULL. *)
Theorem trie_of_zeros_dereferences_null : forall n l,
  Forall (fun p => rat_zero (fst (fst p)) = true) l ->
  exists m, insert_all rat_add rat_zero l (new_sum n) = Ok m /\ sum_terms rat_zero m = Err NullDeref.
Proof.
  intros n l H. exists (new_sum n). split; [|reflexivity]. unfold insert_all.
  induction H as [|p l Hp _ IH]; [reflexivity|]. cbn [fold_out]. unfold insert_form at 1. rewrite Hp. exact IH.
Qed.
Print Assumptions trie_of_zeros_dereferences_null.

(** Sample: 3x^2y - xy^3 + 5 - 3x^2y + xy^3/2 over two variables, enough terms for a burst. *)
Definition sample : list (rat * Z * list Z) :=
  [ (mkRat 3 1, -1, [2;1]); (mkRat (-1) 1, -1, [1;3]); (mkRat 5 1, -1, [0;0]); (mkRat (-3) 1, -1, [2;1]);
    (mkRat 1 2, -1, [1;3]); (mkRat 7 3, -1, [1;0]); (mkRat 2 1, -1, [1;-4]); (mkRat 4 1, -1, [-2;9]) ].
Example trie_sample :
  bind (insert_all rat_add rat_zero sample (new_sum 2)) (fun m => bind (sum_terms rat_zero m) (fun l => Ok (map triple l))) =
  Ok [ (mkRat 4 1, -1, [-2;9]); (mkRat 5 1, -1, [0;0]); (mkRat 2 1, -1, [1;-4]); (mkRat 7 3, -1, [1;0]); (mkRat (-1) 2, -1, [1;3]) ].
Proof. vm_compute. reflexivity. Qed.
Example trie_sample_hypotheses :
  Forall (fun p => lowest_terms (fst (fst p)) /\ length (snd p) = 2%nat) sample /\
  (exists p, In p sample /\ ~ (value (fst (fst p)) == 0)%Q).
Proof.
  split.
  - repeat constructor.
  - eexists. split; [left; reflexivity|]. cbn [fst]. intros H. vm_compute in H. discriminate.
Qed.

(** C13.  The truncated product of two polynomials entered as monomials. *)
Theorem truncated_product_partial : forall n l1 l2 mn mx m1 m2 t1 t2, n <> O -> length mn = n -> length mx = n ->
  Forall (fun p => lowest_terms (fst p) /\ length (snd p) = n) l1 ->
  Forall (fun p => lowest_terms (fst p) /\ length (snd p) = n) l2 ->
  insert_all rat_add rat_zero (as_input l1) (new_sum n) = Ok m1 -> ms_trie m1 = Some t1 ->
  insert_all rat_add rat_zero (as_input l2) (new_sum n) = Ok m2 -> ms_trie m2 = Some t2 ->
  exists t, trie_multiply rat_add rat_zero rat_mul_fun t1 t2 n mn mx = Ok t /\
    ((t = empty_trie /\ forall x, (coef (truncate mn mx (pmul (input_poly l1) (input_poly l2))) x == 0)%Q) \/
     exists out, iterate rat_zero t n = Ok out /\ NoDup (map t_exps out) /\
       Forall (fun tm => lowest_terms (t_coef tm) /\ ~ (value (t_coef tm) == 0)%Q) out /\
       forall x, (coef (terms_poly out) x == coef (truncate mn mx (pmul (input_poly l1) (input_poly l2))) x)%Q).
Proof. exact trie_multiply_exact. Qed.
Print Assumptions truncated_product_partial.

(** REFUTED part of C13: if no product term lies in the box, the result is a trie that
    cannot be iterated (its range pointer is NULL): x * y truncated to degree at most 0. *)
Theorem truncated_product_empty_refuted :
  exists n l1 l2 mn mx m1 m2 t1 t2 t,
    insert_all rat_add rat_zero (as_input l1) (new_sum n) = Ok m1 /\ ms_trie m1 = Some t1 /\
    insert_all rat_add rat_zero (as_input l2) (new_sum n) = Ok m2 /\ ms_trie m2 = Some t2 /\
    trie_multiply rat_add rat_zero rat_mul_fun t1 t2 n mn mx = Ok t /\ iterate rat_zero t n = Err NullDeref.
Proof.
  exists 2%nat, [(mkRat 1 1, [1;0])], [(mkRat 1 1, [0;1])], [0;0], [0;0].
  do 5 eexists. vm_compute. repeat split.
Qed.
Print Assumptions truncated_product_empty_refuted.
Example truncated_product_sample :
  bind (insert_all rat_add rat_zero (as_input [(mkRat 1 1, [1;0]); (mkRat 2 1, [0;1]); (mkRat 1 1, [0;0])]) (new_sum 2)) (fun m1 =>
  bind (insert_all rat_add rat_zero (as_input [(mkRat 1 1, [1;0]); (mkRat (-2) 1, [0;1])]) (new_sum 2)) (fun m2 =>
  match ms_trie m1, ms_trie m2 with
  | Some t1, Some t2 => bind (trie_multiply rat_add rat_zero rat_mul_fun t1 t2 2 [0;0] [2;1])
      (fun t => bind (iterate rat_zero t 2) (fun l => Ok (map triple l)))
  | _, _ => Err NullDeref end)) =
  Ok [ (mkRat (-2) 1, -1, [0;1]); (mkRat 1 1, -1, [1;0]); (mkRat 1 1, -1, [2;0]) ].
Proof. vm_compute. reflexivity. Qed.

(** C59.  Every history of insertions, additions and truncated products over polynomial
    objects runs, and each object then stands for the polynomial the history says:
    with term count 0 it is the zero polynomial, otherwise iterating delivers it. *)
Theorem polynomial_programs_exact : forall n p, n <> O -> Forall (legal n) p ->
  exists s, grun (fun _ => new_sum n) p = Ok s /\
  forall i, (ms_terms (s i) = O -> forall x, (coef (prun (fun _ => []) p i) x == 0)%Q) /\
    (ms_terms (s i) <> O -> exists out, sum_terms rat_zero (s i) = Ok out /\ NoDup (map t_exps out) /\
       Forall (fun tm => lowest_terms (t_coef tm) /\ ~ (value (t_coef tm) == 0)%Q) out /\
       forall x, (coef (terms_poly out) x == coef (prun (fun _ => []) p i) x)%Q).
Proof. exact gms_programs. Qed.
Print Assumptions polynomial_programs_exact.

Definition sample_program : list gop :=
  [ GInsert 0 (mkRat 1 1) [1;0]; GInsert 0 (mkRat 1 1) [0;1]; GInsert 1 (mkRat 1 1) [1;0]; GInsert 1 (mkRat (-1) 1) [0;1];
    GMul 0 1 [0;0] [9;9]; GAdd 0 1; GMul 0 2 [0;0] [9;9]; GAdd 0 1 ].
Example sample_program_legal : Forall (legal 2) sample_program.
Proof. repeat constructor; discriminate. Qed.
Example sample_program_runs :
  bind (grun (fun _ => new_sum 2) sample_program) (fun s => bind (sum_terms rat_zero (s 0%nat)) (fun l => Ok (map triple l))) =
  Ok [ (mkRat (-1) 1, -1, [0;1]); (mkRat 1 1, -1, [1;0]) ].
Proof. vm_compute. reflexivity. Qed.
