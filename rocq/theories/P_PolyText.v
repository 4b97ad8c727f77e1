(** Property theorems about texts of rationals, polynomials, sums of powers of linear
    forms and products of powers of linear forms (C03, C12, C49, C67, C68). *)
From Coq Require Import QArith Permutation Factorial String.
From Verif Require Import Common Rational RationalSpec RationalProofs Trie TrieSpec TrieProofs2 Text TextProofs PolyText PolyTextSpec PolyTextProofs PolyTextProofs2 PolyTextProofs3 PolyTextProofs4.
Open Scope Z_scope.

(** C03.  The text printed for any object a client program can produce is read back by
    the string constructor as the same object. *)
Theorem rational_text_round_trip : forall p s i, run init p = Ok s -> rat_of_text (show_rat (s i)) = Ok (s i).
Proof. intros p s i E. apply show_rat_reads. exact (run_lowest p init s init_lowest E i). Qed.
Print Assumptions rational_text_round_trip.
Example rational_text_sample :
  exists s, run init [OSet 0 (-18) 12; OSet 1 1 3; OMul 0 1; OSetZ 2 (-70)] = Ok s /\
  show_rat (s 0%nat) = lit "-1/2" /\ rat_of_text (show_rat (s 0%nat)) = Ok (mkRat (-1) 2) /\
  show_rat (s 2%nat) = lit "-70" /\ rat_of_text (lit "6/-4") = Ok (mkRat (-3) 2).
Proof. eexists. split; [vm_compute; reflexivity|]. vm_compute. repeat split. Qed.

(** C68.  Extracting with operator>> what operator<< inserted gives the same object and
    leaves the rest of the stream, except that white space after an integer is also
    removed.  The rest must not glue to the number: it must not start with a digit, and
    its first non-space character must not be a slash. *)
Theorem rational_stream_round_trip : forall r rest, lowest_terms r ->
  (forall c s, rest = c :: s -> is_digit c = false) ->
  (forall c s, skip_space rest = c :: s -> c <> "/"%char) ->
  read_rat (show_rat r ++ rest) = Ok (r, if den r =? 1 then skip_space rest else rest).
Proof.
  intros r rest L A B. apply show_rat_streams; [exact L|]. unfold follows. apply andb_true_iff. split.
  - destruct rest as [|c s]; [reflexivity|]. cbn [nondigit]. rewrite (A c s eq_refl). reflexivity.
  - destruct (skip_space rest) as [|c s]; [reflexivity|]. apply negb_true_iff.
    destruct (is_char "/" c) eqn:E; [|reflexivity]. apply is_char_eq in E. symmetry in E. destruct (B c s eq_refl E).
Qed.
Print Assumptions rational_stream_round_trip.
Example rational_stream_sample :
  read_rat (lit "-7/3 5") = Ok (mkRat (-7) 3, lit " 5") /\ read_rat (lit "12   x") = Ok (mkRat 12 1, lit "x") /\
  read_rat (lit "12 / 4hello") = Ok (mkRat 3 1, lit "hello").
Proof. vm_compute. repeat split. Qed.
(** REFUTED part of C68: an explicit plus sign passes the assertion of readNumber but
    then ends the program, and so does the spaced sign of the source comment
    (rational.cpp:531); with a slash in the next token the numbers are merged. *)
Theorem rational_stream_refuted :
  read_rat (lit "+3") = Err Exited /\ read_rat (lit "   - 12/-23") = Err Exited /\
  read_rat (show_rat (mkRat 5 1) ++ lit " /2") = Ok (mkRat 5 2, []).
Proof. vm_compute. repeat split. Qed.
Print Assumptions rational_stream_refuted.

(** C12.  Any polynomial with int exponents that is not zero: it is stored, printing it
    succeeds, and loading the printed text into any object gives an object with the same
    number of variables that delivers exactly the same terms. *)
Theorem polynomial_text_round_trip : forall n l, n <> O ->
  Forall (fun p => lowest_terms (fst p) /\ length (snd p) = n /\ Forall (fun z => - 2147483648 <= z <= 2147483647) (snd p)) l ->
  (exists x, ~ (coef (input_poly l) x == 0)%Q) ->
  exists m s out, insert_all rat_add rat_zero (as_input l) (new_sum n) = Ok m /\ print_monomials m = Ok s /\
    sum_terms rat_zero m = Ok out /\ (forall x, (coef (terms_poly out) x == coef (input_poly l) x)%Q) /\
    forall old, exists m', load_monomials old s = Ok m' /\ ms_vars m' = n /\ sum_terms rat_zero m' = Ok out.
Proof.
  intros n l N H. apply (print_load n l N). eapply Forall_impl; [|exact H]. intros p (A&B&C). split; [exact A|]. split; [exact B|].
  eapply Forall_impl; [|exact C]. intros z Hz. cbv beta in Hz. unfold int_range. apply andb_true_iff. split; apply Z.leb_le; lia.
Qed.
Print Assumptions polynomial_text_round_trip.
Definition sample_poly : list (rat * list Z) :=
  [ (mkRat 3 2, [2;1]); (mkRat (-4) 1, [0;3]); (mkRat 5 1, [2;1]); (mkRat 7 1, [1;0]); (mkRat (-7) 1, [1;0]); (mkRat 1 9, [10;0]) ].
Example polynomial_text_sample :
  bind (insert_all rat_add rat_zero (as_input sample_poly) (new_sum 2)) print_monomials =
    Ok (lit "[[-4, [0, 3]], [13/2, [2, 1]], [1/9, [10, 0]]]") /\
  bind (load_monomials (new_sum 7) (lit "[[-4, [0, 3]], [13/2, [2, 1]], [1/9, [10, 0]]]")) print_monomials =
    Ok (lit "[[-4, [0, 3]], [13/2, [2, 1]], [1/9, [10, 0]]]") /\
  (coef (input_poly sample_poly) [0;3]%Z == -4 # 1)%Q.
Proof. vm_compute. repeat split. Qed.

(** The zero polynomial cannot be printed (NULL is dereferenced), and loading a text with
    only zero coefficients into a used object leaves the old polynomial in it. *)
Theorem zero_polynomial_text_refuted :
  bind (load_monomials (new_sum 0) (lit "[[2, [1]], [-2, [1]]]")) print_monomials = Err NullDeref /\
  bind (load_monomials (new_sum 0) (lit "[[0, [1]]]")) print_monomials = Err NullDeref /\
  bind (load_monomials (new_sum 0) (lit "[[2, [5]]]")) (fun m => bind (load_monomials m (lit "[[0, [1]]]")) print_monomials) = Ok (lit "[[2, [5]]]").
Proof. vm_compute. repeat split. Qed.
Print Assumptions zero_polynomial_text_refuted.

(** C67.  A sum of powers of linear forms given as a text: loading it succeeds and the
    object stands for that sum, at every point. *)
Theorem linear_forms_text_loads : forall n l old p, n <> O ->
  Forall (fun t => lowest_terms (t_coef t) /\ length (t_exps t) = n /\ - 2147483648 <= t_deg t <= 2147483647) l ->
  (exists t, In t l /\ ~ (value (t_coef t) == 0)%Q) ->
  exists m out, load_forms old (ob :: sep_by (map show_form l) ++ [cb]) = Ok m /\ sum_terms rat_zero m = Ok out /\
    (stored_sum_at p out == fold_right (fun t q => value (t_coef t) * form_at (t_exps t) p ^ t_deg t + q) 0 l)%Q.
Proof.
  intros n l old p N H E. apply (load_forms_value n); [exact N| |exact E]. eapply Forall_impl; [|exact H].
  intros t (A&B&C). cbv beta in C. split; [exact A|]. split; [exact B|]. unfold int_range. apply andb_true_iff. split; apply Z.leb_le; lia.
Qed.
Print Assumptions linear_forms_text_loads.
Example linear_forms_sample :
  (ob :: sep_by (map show_form [mkTerm (mkRat 1 2) [1;-2] 2; mkTerm (mkRat (-4) 1) [0;3] 3]) ++ [cb])%list = lit "[[1/2, [2, [1, -2]]], [-4, [3, [0, 3]]]]" /\
  bind (load_forms (new_sum 0) (lit "[[1/2, [2, [1, -2]]], [-4, [3, [0, 3]]]]")) (sum_terms rat_zero) =
    Ok [mkTerm (mkRat (-24) 1) [0;3] 3; mkTerm (mkRat 1 1) [1;-2] 2].
Proof. vm_compute. repeat split. Qed.

(** REFUTED: printing a stored sum and loading the text does not give it back, because
    the coefficient printed already includes the factorial of the degree and loading
    multiplies by it again. *)
Theorem linear_forms_text_round_trip_refuted :
  bind (load_forms (new_sum 0) (lit "[[1, [3, [1, 2]]]]")) print_forms = Ok (lit "[[6, [3, [1, 2]]]]") /\
  bind (load_forms (new_sum 0) (lit "[[6, [3, [1, 2]]]]")) print_forms = Ok (lit "[[36, [3, [1, 2]]]]").
Proof. vm_compute. repeat split. Qed.
Print Assumptions linear_forms_text_round_trip_refuted.
(** What happens instead, for every stored sum: each coefficient is multiplied by the
    factorial of its degree. *)
Theorem linear_forms_text_round_trip_actual : forall n m out, n <> O -> sum_terms rat_zero m = Ok out -> out <> [] ->
  Forall (fun t => lowest_terms (t_coef t) /\ ~ (value (t_coef t) == 0)%Q /\ length (t_exps t) = n /\ - 2147483648 <= t_deg t <= 2147483647) out ->
  exists s, print_forms m = Ok s /\ forall old, exists m' out', load_forms old s = Ok m' /\ sum_terms rat_zero m' = Ok out' /\
    forall d x, (coefficient (map triple out') d x == inject_Z (Z.of_nat (fact (Z.to_nat d))) * coefficient (map triple out) d x)%Q.
Proof.
  intros n m out N E NE H. exists (ob :: sep_by (map show_form out) ++ [cb])%list. split.
  { unfold print_forms. rewrite E. cbn [bind]. destruct out; [congruence|reflexivity]. }
  intros old. destruct (load_forms_exact n out old N) as (m'&out'&A&B&C&_).
  - eapply Forall_impl; [|exact H]. intros t (L&_&B&C). split; [exact L|]. split; [exact B|].
    unfold int_range. apply andb_true_iff. split; apply Z.leb_le; lia.
  - destruct out as [|t out]; [congruence|]. exists t. split; [left; reflexivity|]. apply (Forall_inv H).
  - eauto.
Qed.
Print Assumptions linear_forms_text_round_trip_actual.

(** C49, the part that holds.  A text of products of powers of linear forms, each product
    with a non-zero coefficient and pairwise different factors: every product read keeps
    exactly its factors, and its value at every point is that of the product. *)
Theorem products_keep_factors_partial : forall n l old, n <> O -> l <> [] -> Forall (wf_product n) l ->
  Forall (fun a => ~ (value (fst a) == 0)%Q /\ NoDup (snd a)) l ->
  exists ms, load_products old (show_products l) = Ok (n, old ++ ms)%list /\
    Forall2 (fun a m => exists out, sum_terms rat_zero m = Ok out /\
      Permutation (map (fun t => (t_deg t, t_exps t)) out) (snd a) /\
      forall p, (stored_product_at p out == product_at p a)%Q) l ms.
Proof. exact products_loaded. Qed.
Print Assumptions products_keep_factors_partial.
Definition sample_products : list (rat * list (Z * list Z)) :=
  [ (mkRat 1 2, [(2, [1;-2]); (3, [0;3]); (1, [1;-2])]); (mkRat 5 1, [(1, [2;1])]) ].
Example products_sample :
  show_products sample_products = lit "[[1/2, [[2, [1, -2]], [3, [0, 3]], [1, [1, -2]]]], [5, [[1, [2, 1]]]]]" /\
  (exists ms, load_products [] (show_products sample_products) = Ok (2%nat, ms) /\
    map (sum_terms rat_zero) ms = [ Ok [mkTerm (mkRat 6 1) [0;3] 3; mkTerm (mkRat 1 1) [1;-2] 1; mkTerm (mkRat 1 1) [1;-2] 2]; Ok [mkTerm (mkRat 5 1) [2;1] 1] ]).
Proof. split; [vm_compute; reflexivity|]. eexists. split; vm_compute; reflexivity. Qed.
Example products_sample_hypotheses : Forall (wf_product 2) sample_products /\
  Forall (fun a => ~ (value (fst a) == 0)%Q /\ NoDup (snd a)) sample_products.
Proof.
  split.
  - repeat constructor; cbn; try discriminate; try reflexivity; lia.
  - repeat constructor; cbn; try discriminate; intuition discriminate.
Qed.
(** REFUTED: a repeated factor is merged by addition (x * x is stored as 2x, which is 4 at
    x = 2 only by accident and 6 instead of 9 at x = 3), and a zero coefficient drops the
    first factor instead of making the product zero. *)
Theorem products_keep_factors_refuted :
  (exists m out, load_products [] (lit "[[1, [[1, [1]], [1, [1]]]]]") = Ok (1%nat, [m]) /\ sum_terms rat_zero m = Ok out /\
     out = [mkTerm (mkRat 2 1) [1] 1] /\ (stored_product_at [3%Q] out == 6)%Q /\
     (product_at [3] (mkRat 1 1, [(1, [1]); (1, [1])])%Z == 9)%Q) /\
  (exists m out, load_products [] (lit "[[0, [[1, [1, 0]], [1, [0, 1]]]]]") = Ok (2%nat, [m]) /\ sum_terms rat_zero m = Ok out /\
     out = [mkTerm (mkRat 1 1) [0;1] 1] /\ (stored_product_at [3%Q; 5%Q] out == 5)%Q /\
     (product_at [3; 5] (mkRat 0 1, [(1, [1;0]); (1, [0;1])])%Z == 0)%Q).
Proof. split; do 2 eexists; vm_compute; repeat split. Qed.
Print Assumptions products_keep_factors_refuted.
