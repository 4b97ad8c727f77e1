(** RationalNTL operators that work on a fresh copy of the left operand
    (code/latte/rational.cpp:242-251, 277-290, 351-375), as functions on values.
    The assertion denom != 0 of add (line 229) holds for every object in lowest terms and
    is left out; the store-based model of aliasing is Rational.v. *)
From Coq Require Import QArith Qpower.
From Verif Require Import Common Rational RationalSpec RationalProofs.
Open Scope Z_scope.

(** rational.cpp:242-246 operator+, 225-233 add. *)
Definition rat_add (a b : rat) : rat := canonicalize (mkRat (num a * den b + num b * den a) (den a * den b)).
(** rational.cpp:247-251 operator-. *)
Definition rat_sub (a b : rat) : rat := canonicalize (mkRat (num a * den b + num b * (-1) * den a) (den a * den b)).
(** rational.cpp:358-362, 301-307 operator*. *)
Definition rat_mul (a b : rat) : rat := canonicalize (mkRat (num a * num b) (den a * den b)).
(** rational.cpp:364-375, 314-319: product with an integer. *)
Definition rat_mulz (a : rat) (z : Z) : rat := canonicalize (mkRat (num a * z) (den a)).
(** rational.cpp:285-289, 262-267: quotient by an integer. *)
Definition rat_divz (a : rat) (z : Z) : rat := canonicalize (mkRat (num a) (den a * z)).
(** rational.cpp:407-410 changeSign. *)
Definition rat_neg (a : rat) : rat := mkRat (num a * (-1)) (den a).
(** rational.cpp:324-355 power; negative powers of zero fail the assertion of line 333. *)
Definition rat_pow (a : rat) (e : Z) : outcome rat :=
  if 0 <? e then Ok (canonicalize (mkRat (num a ^ e) (den a ^ e)))
  else if e <? 0 then assert_then (negb (num a =? 0)) (Ok (canonicalize (mkRat (den a ^ (e * -1)) (num a ^ (e * -1)))))
  else Ok (canonicalize (mkRat 1 1)).

Open Scope Q_scope.
Ltac ratc := match goal with |- lowest_terms (canonicalize (mkRat ?n ?d)) /\ _ =>
  let H := fresh in assert (H : (d <> 0)%Z); [|destruct (canonicalize_correct n d H) as [? ?V]; split; [assumption|rewrite V]] end.
Lemma rat_make_ok n d : (d <> 0)%Z -> lowest_terms (rat_make n d) /\ value (rat_make n d) == inject_Z n / inject_Z d.
Proof. intros H. now apply canonicalize_correct. Qed.
Lemma rat_int_ok z : lowest_terms (mkRat z 1) /\ value (mkRat z 1) == inject_Z z.
Proof. split; [split; [cbn; lia|cbn; apply Z.gcd_1_r]|reflexivity]. Qed.
Lemma rat_add_ok a b : lowest_terms a -> lowest_terms b -> lowest_terms (rat_add a b) /\ value (rat_add a b) == value a + value b.
Proof.
  intros La Lb. pose proof (den_nz _ La). pose proof (den_nz _ Lb). unfold rat_add. ratc; [nia|]. rewrite (value_div a), (value_div b) by apply La || apply Lb.
  rewrite inject_Z_plus, !inject_Z_mult. field. split; apply inject_nz; auto.
Qed.
Lemma rat_sub_ok a b : lowest_terms a -> lowest_terms b -> lowest_terms (rat_sub a b) /\ value (rat_sub a b) == value a - value b.
Proof.
  intros La Lb. pose proof (den_nz _ La). pose proof (den_nz _ Lb). unfold rat_sub. ratc; [nia|]. rewrite (value_div a), (value_div b) by apply La || apply Lb.
  rewrite inject_Z_plus, !inject_Z_mult. change (inject_Z (-1)) with (-(1)). field. split; apply inject_nz; auto.
Qed.
Lemma rat_mul_ok a b : lowest_terms a -> lowest_terms b -> lowest_terms (rat_mul a b) /\ value (rat_mul a b) == value a * value b.
Proof.
  intros La Lb. pose proof (den_nz _ La). pose proof (den_nz _ Lb). unfold rat_mul. ratc; [nia|]. rewrite (value_div a), (value_div b) by apply La || apply Lb.
  rewrite !inject_Z_mult. field. split; apply inject_nz; auto.
Qed.
Lemma rat_mulz_ok a z : lowest_terms a -> lowest_terms (rat_mulz a z) /\ value (rat_mulz a z) == value a * inject_Z z.
Proof.
  intros La. pose proof (den_nz _ La). unfold rat_mulz. ratc; [auto|]. rewrite (value_div a) by apply La.
  rewrite !inject_Z_mult. field. apply inject_nz; auto.
Qed.
Lemma rat_divz_ok a z : lowest_terms a -> (z <> 0)%Z -> lowest_terms (rat_divz a z) /\ value (rat_divz a z) == value a / inject_Z z.
Proof.
  intros La Hz. pose proof (den_nz _ La). unfold rat_divz. ratc; [nia|]. rewrite (value_div a) by apply La.
  rewrite !inject_Z_mult. field. split; apply inject_nz; auto.
Qed.
Lemma rat_neg_ok a : lowest_terms a -> lowest_terms (rat_neg a) /\ value (rat_neg a) == - value a.
Proof.
  intros [L1 L2]. split; [split; cbn [rat_neg num den]; auto; replace (num a * -1)%Z with (- num a)%Z by lia; now rewrite Z.gcd_opp_l|].
  unfold value, rat_neg. cbn [num den]. unfold Qeq; cbn. lia.
Qed.
Lemma rat_pow_ok a e : lowest_terms a -> (0 <= e)%Z \/ ~ value a == 0 -> exists r, rat_pow a e = Ok r /\ lowest_terms r /\ value r == value a ^ e.
Proof.
  intros La H. pose proof (den_nz _ La) as D. unfold rat_pow.
  destruct (Z.ltb_spec 0 e) as [P|P].
  - eexists; split; [reflexivity|]. ratc; [apply Z.pow_nonzero; lia|].
    rewrite value_div by apply La. rewrite Qdiv_power, !Qpower_inject_Z by lia. reflexivity.
  - destruct (Z.ltb_spec e 0) as [N|N].
    + assert (Zn : num a <> 0%Z) by (rewrite <- value_zero by auto; intros E; destruct H; [lia|auto]).
      unfold assert_then. destruct (Z.eqb_spec (num a) 0); [contradiction|]. cbn [negb].
      eexists; split; [reflexivity|]. replace (e * -1)%Z with (-e)%Z by lia. ratc; [apply Z.pow_nonzero; lia|].
      rewrite value_div by apply La.
      remember (- e)%Z as f eqn:Ef. replace e with (- f)%Z by lia.
      rewrite (Qpower_opp _ f), !Qdiv_power, !Qpower_inject_Z by lia. field.
      split; apply inject_nz; apply Z.pow_nonzero; lia.
    + assert (e = 0)%Z by lia. subst. eexists; split; [reflexivity|]. split; [split; reflexivity|reflexivity].
Qed.
