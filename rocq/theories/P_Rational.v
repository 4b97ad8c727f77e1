(** Property theorems about exact rational arithmetic (C01, C02, C04, C51). *)
From Coq Require Import QArith.
From Verif Require Import Common Rational RationalSpec RationalProofs.
Open Scope Q_scope.

(** C01.  Every client program over RationalNTL variables whose mathematical
    meaning is defined (no zero denominator, no division by zero) and that never
    divides an object in place by itself runs without error, and afterwards every
    variable is in lowest terms with positive denominator and has exactly the
    mathematical value. *)
Theorem rational_programs_exact : forall p qs,
  forallb (fun o => negb (self_division o)) p = true ->
  spec_run qinit p = Some qs ->
  exists s, run init p = Ok s /\ forall i, lowest_terms (s i) /\ value (s i) == qs i.
Proof. exact run_exact. Qed.
Print Assumptions rational_programs_exact.

(** C01, second half: operator== decides mathematical equality. *)
Theorem rational_equality_decides : forall p qs s,
  forallb (fun o => negb (self_division o)) p = true ->
  spec_run qinit p = Some qs -> run init p = Ok s ->
  forall i j, rat_eqb (s i) (s j) = true <-> qs i == qs j.
Proof. exact run_eq. Qed.
Print Assumptions rational_equality_decides.

Definition demo : list op :=
  [OSet 0 3 4; OSet 1 (-5) (-6); OSet 2 7 (-2); OPlus 3 0 1; OAdd 3 3; OMul 3 2;
   OOver 4 3 1; OPow 4 (-3); ODiv 4 2; OSub 4 0; ONeg 4; OMinus 5 4 4; OTimes 5 4 4; ODivZ 5 (-9)].
Example rational_demo_hypotheses :
  forallb (fun o => negb (self_division o)) demo = true /\ spec_run qinit demo <> None.
Proof. split; [reflexivity | vm_compute; discriminate]. Qed.
Example rational_demo_value :
  match run init demo with Ok s => s 3%nat = mkRat (-133) 12 | Err _ => False end.
Proof. vm_compute. reflexivity. Qed.

(** C02.  power(e) is the e-th power in Q for every integer e (also starting from
    any reachable state); a negative power of zero is rejected by the assertion. *)
Theorem rational_power_exact : forall p qs s i e,
  forallb (fun o => negb (self_division o)) p = true ->
  spec_run qinit p = Some qs -> run init p = Ok s ->
  (0 <= e \/ ~ qs i == 0)%Z ->
  exists s', step s (OPow i e) = Ok s' /\ value (s' i) == qs i ^ e /\ lowest_terms (s' i) /\
             forall j, j <> i -> s' j = s j.
Proof. exact power_exact. Qed.
Print Assumptions rational_power_exact.

Theorem rational_power_of_zero_rejected : forall p qs s i e,
  forallb (fun o => negb (self_division o)) p = true ->
  spec_run qinit p = Some qs -> run init p = Ok s ->
  (e < 0)%Z -> qs i == 0 -> step s (OPow i e) = Err AssertFail.
Proof. exact power_zero_rejected. Qed.
Print Assumptions rational_power_of_zero_rejected.

(** C04 is false of the code: RationalNTL(5,0) is the number 5/1, and x.div(0) is
    the number whose numerator is that of x; in general a zero denominator never
    raises anything and is replaced by one. *)
Theorem rational_zero_denominator_refuted :
  exists s, run init [OSet 0 5 0; OSet 1 3 4; ODivZ 1 0] = Ok s /\
    spec_run qinit [OSet 0 5 0; OSet 1 3 4; ODivZ 1 0] = None /\
    s 0%nat = mkRat 5 1 /\ s 1%nat = mkRat 3 1.
Proof. exact zero_denominator_witness. Qed.
Print Assumptions rational_zero_denominator_refuted.

Theorem rational_zero_denominator_always_a_number : forall n, rat_make n 0 = mkRat n 1.
Proof. exact rat_make_zero. Qed.
Print Assumptions rational_zero_denominator_always_a_number.

(** C51 is false of the code: r.div(r) is 1/denominator(r), not 1, because the
    argument's numerator is read after it was overwritten; it is right only for
    integers. *)
Theorem rational_self_division_refuted :
  exists s, run init [OSet 0 3 4; ODiv 0 0] = Ok s /\ s 0%nat = mkRat 1 4.
Proof. exact self_division_witness. Qed.
Print Assumptions rational_self_division_refuted.

Theorem rational_self_division_actual : forall s i,
  lowest_terms (s i) -> num (s i) <> 0%Z -> value (div_ref s i i i) == 1 / inject_Z (den (s i)).
Proof. exact self_division_actual. Qed.
Print Assumptions rational_self_division_actual.

(** C52.  The inner product of two vectors of rationals is the exact one; unequal
    lengths are rejected. *)
Theorem rational_inner_product_exact : forall v w,
  Forall lowest_terms v -> Forall lowest_terms w -> length v = length w ->
  exists r, inner_product v w = Ok r /\ lowest_terms r /\ value r == qdot v w.
Proof. exact inner_product_ok. Qed.
Print Assumptions rational_inner_product_exact.
Theorem rational_inner_product_length_checked : forall v w,
  length v <> length w -> inner_product v w = Err AssertFail.
Proof. exact inner_product_length. Qed.
Print Assumptions rational_inner_product_length_checked.
Example rational_inner_product_demo :
  inner_product [mkRat 1 2; mkRat 2 3] [mkRat (-4) 1; mkRat 3 4] = Ok (mkRat (-3) 2).
Proof. reflexivity. Qed.

(** C53.  The hand-written binary gcd is the gcd, for all integers of any sign,
    and its loop ends after at most two passes per bit. *)
Theorem my_gcd_is_gcd : forall f a b,
  (Z.abs a < 2 ^ Z.of_nat f)%Z -> (Z.abs b < 2 ^ Z.of_nat f)%Z ->
  my_gcd (2 * f + 1) a b = Ok (Z.gcd a b).
Proof. exact my_gcd_ok. Qed.
Print Assumptions my_gcd_is_gcd.
Example my_gcd_demo : my_gcd 21 (-84) 360 = Ok 12%Z.
Proof. reflexivity. Qed.
