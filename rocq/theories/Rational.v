(** Model of class RationalNTL (code/latte/rational.h:168-243,
    code/latte/rational.cpp:139-514).  NTL's ZZ is Z. *)
From Verif Require Import Common.
Open Scope Z_scope.

(** rational.h:170-171: two ZZ members. *)
Record rat := mkRat { num : Z; den : Z }.

(** rational.cpp:139-142, default constructor: 0/1. *)
Definition rat_default : rat := mkRat 0 1.

(** rational.cpp:195-222 RationalNTL::canonicalize.  Note that a zero
    denominator is silently replaced by one (lines 203-207).  The division
    by gcd is exact and gcd is positive because denominator > 0. *)
Definition canonicalize (r : rat) : rat :=
  if den r <? 0 then
    let n := num r * (-1) in let d := den r * (-1) in
    let g := Z.gcd n d in
    if g =? 1 then mkRat n d else mkRat (n / g) (d / g)
  else if den r =? 0 then mkRat (num r) 1
  else
    let g := Z.gcd (num r) (den r) in
    if g =? 1 then r else mkRat (num r / g) (den r / g).

(** rational.cpp:144-148 (and the int variants 150-168): constructor. *)
Definition rat_make (n d : Z) : rat := canonicalize (mkRat n d).

(** rational.cpp:413-416 operator==. *)
Definition rat_eqb (a b : rat) : bool := (num a =? num b) && (den a =? den b).

(** rational.cpp:418-432 operator==(long) and operator==(ZZ). *)
Definition rat_eqb_z (a : rat) (z : Z) : bool := (den a =? 1) && (num a =? z).

(** Objects live in a store, so that the C++ references taken by the in-place
    operations may alias (r.div(r) reads r while it is being modified). *)
Definition store := nat -> rat.
Definition set (s : store) (i : nat) (r : rat) : store :=
  fun k => if Nat.eqb k i then r else s k.
Definition init : store := fun _ => rat_default.

(** rational.cpp:225-233 RationalNTL::add(const ZZ &num, const ZZ &denom), the
    arguments given by value: callers pass either a temporary or a member of
    another object; see [add_ref] for references. *)
Definition add_val (s : store) (i : nat) (n d : Z) : outcome store :=
  let s1 := set s i (mkRat (num (s i) * d + n * den (s i)) (den (s i))) in
  let s2 := set s1 i (mkRat (num (s1 i)) (den (s1 i) * d)) in
  assert_then (negb (d =? 0)) (Ok (set s2 i (canonicalize (s2 i)))).

(** rational.cpp:236-239, 253-256: r_i.add(r_j) passes references to the
    members of r_j, which are read again after r_i was modified (they change if
    i = j; NTL's mul tolerates aliasing of its operands). *)
Definition add_ref (s : store) (i j : nat) : outcome store :=
  let s1 := set s i (mkRat (num (s i) * den (s j) + num (s j) * den (s i)) (den (s i))) in
  let s2 := set s1 i (mkRat (num (s1 i)) (den (s1 i) * den (s1 j))) in
  assert_then (negb (den (s2 j) =? 0)) (Ok (set s2 i (canonicalize (s2 i)))).

(** rational.cpp:257-260 operator-=: add(rhs.numerator * -1, rhs.denominator);
    the first argument is a temporary, the second a reference. *)
Definition sub_ref (s : store) (i j : nat) : outcome store :=
  let t := num (s j) * (-1) in
  let s1 := set s i (mkRat (num (s i) * den (s j) + t * den (s i)) (den (s i))) in
  let s2 := set s1 i (mkRat (num (s1 i)) (den (s1 i) * den (s1 j))) in
  assert_then (negb (den (s2 j) =? 0)) (Ok (set s2 i (canonicalize (s2 i)))).

(** rational.cpp:301-312, 377-380: r_i.mult(r_j) / operator*=, with references
    to the members of r_j. *)
Definition mul_ref (s : store) (i j : nat) : store :=
  let s1 := set s i (mkRat (num (s i) * num (s j)) (den (s i))) in
  let s2 := set s1 i (mkRat (num (s1 i)) (den (s1 i) * den (s1 j))) in
  set s2 i (canonicalize (s2 i)).

(** rational.cpp:269-275 RationalNTL::div(const RationalNTL &rhs). *)
Definition div_ref (s : store) (i j : nat) : store :=
  let s1 := set s i (mkRat (num (s i) * den (s j)) (den (s i))) in
  let s2 := set s1 i (mkRat (num (s1 i)) (den (s1 i) * num (s1 j))) in
  set s2 i (canonicalize (s2 i)).

(** rational.cpp:262-267 RationalNTL::div(const ZZ &). *)
Definition div_z (s : store) (i : nat) (z : Z) : store :=
  set s i (canonicalize (mkRat (num (s i)) (den (s i) * z))).

(** rational.cpp:314-319, 382-390 RationalNTL::mult(const ZZ). *)
Definition mul_z (s : store) (i : nat) (z : Z) : store :=
  set s i (canonicalize (mkRat (num (s i) * z) (den (s i)))).

(** rational.cpp:407-410 changeSign. *)
Definition change_sign (s : store) (i : nat) : store :=
  set s i (mkRat (num (s i) * (-1)) (den (s i))).

(** rational.cpp:324-348 RationalNTL::power(long e); NTL::power is Z.pow on
    non-negative exponents. *)
Definition power (s : store) (i : nat) (e : Z) : outcome store :=
  if 0 <? e then
    Ok (set s i (canonicalize (mkRat (num (s i) ^ e) (den (s i) ^ e))))
  else if e <? 0 then
    assert_then (negb (num (s i) =? 0))
      (Ok (set s i (canonicalize (mkRat (den (s i) ^ (e * -1)) (num (s i) ^ (e * -1))))))
  else Ok (set s i (canonicalize (mkRat 1 1))).

(** One statement of a client program over RationalNTL variables r_0, r_1, ... *)
Inductive op :=
| OSet (i : nat) (n d : Z)      (* r_i = RationalNTL(n,d) *)
| OSetZ (i : nat) (z : Z)       (* r_i = z                *)
| OAssign (i j : nat)           (* r_i = r_j              *)
| OAdd (i j : nat)              (* r_i += r_j             *)
| OSub (i j : nat)              (* r_i -= r_j             *)
| OMul (i j : nat)              (* r_i *= r_j             *)
| ODiv (i j : nat)              (* r_i.div(r_j)           *)
| OPlus (i j k : nat)           (* r_i = r_j + r_k        *)
| OMinus (i j k : nat)          (* r_i = r_j - r_k        *)
| OTimes (i j k : nat)          (* r_i = r_j * r_k        *)
| OOver (i j k : nat)           (* r_i = r_j / r_k        *)
| OMulZ (i : nat) (z : Z)       (* r_i *= z               *)
| ODivZ (i : nat) (z : Z)       (* r_i.div(z)             *)
| ONeg (i : nat)                (* r_i.changeSign()       *)
| OPow (i : nat) (e : Z).       (* r_i.power(e)           *)

(** rational.cpp:242-251, 277-281, 358-362: the binary operators work on a copy
    of the left operand ("RationalNTL answer( *this)"), and the result is then
    assigned with operator= (458-466), which canonicalizes again unless the two
    objects are the same. [assign] models operator=. *)
Definition assign (s : store) (i : nat) (r : rat) : store := set s i (canonicalize r).

(** The copy "answer" of r_j used by the binary operators is a fresh object: its
    members do not alias r_k.  The helper runs [f] on a store in which a fresh
    variable 0 holds the copy and variable 1 holds the right operand. *)
Definition on_copy (a b : rat) (f : store -> nat -> nat -> outcome store) : outcome rat :=
  bind (f (set (set init 1%nat b) 0%nat a) 0%nat 1%nat) (fun s => Ok (s 0%nat)).

Definition step (s : store) (o : op) : outcome store :=
  match o with
  | OSet i n d => Ok (assign s i (rat_make n d))
  | OSetZ i z => Ok (set s i (mkRat z 1))
  | OAssign i j => Ok (if Nat.eqb i j then s else assign s i (s j))
  | OAdd i j => add_ref s i j
  | OSub i j => sub_ref s i j
  | OMul i j => Ok (mul_ref s i j)
  | ODiv i j => Ok (div_ref s i j)
  | OPlus i j k => bind (on_copy (s j) (s k) add_ref) (fun r => Ok (assign s i r))
  | OMinus i j k => bind (on_copy (s j) (s k) sub_ref) (fun r => Ok (assign s i r))
  | OTimes i j k => bind (on_copy (s j) (s k) (fun t a b => Ok (mul_ref t a b))) (fun r => Ok (assign s i r))
  | OOver i j k => bind (on_copy (s j) (s k) (fun t a b => Ok (div_ref t a b))) (fun r => Ok (assign s i r))
  | OMulZ i z => Ok (mul_z s i z)
  | ODivZ i z => Ok (div_z s i z)
  | ONeg i => Ok (change_sign s i)
  | OPow i e => power s i e
  end.

Fixpoint run (s : store) (p : list op) : outcome store :=
  match p with
  | [] => Ok s
  | o :: p' => bind (step s o) (fun s' => run s' p')
  end.

(** rational.cpp:620-628 vec_RationalNTL::innerProduct: sum.add(v1[k]*v2[k]) in a
    loop, sum starting at 0/1.  (v1[k]*v2[k] is a temporary.)  Different lengths
    fail the assertion of line 624. *)
Definition rat_mul_fun (a b : rat) : rat :=
  canonicalize (mkRat (num a * num b) (den a * den b)).
Fixpoint inner_loop (acc : rat) (v w : list rat) : outcome rat :=
  match v, w with
  | [], [] => Ok acc
  | a :: v', b :: w' =>
      let t := rat_mul_fun a b in
      bind (assert_then (negb (den t =? 0))
              (Ok (canonicalize (mkRat (num acc * den t + num t * den acc) (den acc * den t)))))
           (fun acc' => inner_loop acc' v' w')
  | _, _ => Err AssertFail
  end.
Definition inner_product (v w : list rat) : outcome rat :=
  if Nat.eqb (length v) (length w) then inner_loop rat_default v w else Err AssertFail.

(** rational.cpp:478-514 RationalNTL::myGCD: binary gcd.  One pass of the
    while(true) loop per unit of fuel. *)
Fixpoint my_gcd_loop (fuel : nat) (a b k : Z) : outcome Z :=
  match fuel with
  | O => Err OutOfFuel
  | S f =>
      if a =? 0 then Ok (b * 2 ^ k)
      else if b =? 0 then Ok (a * 2 ^ k)
      else if a mod 2 =? 0 then
        if b mod 2 =? 0 then my_gcd_loop f (a / 2) (b / 2) (k + 1)
        else my_gcd_loop f (a / 2) b k
      else if b mod 2 =? 0 then my_gcd_loop f a (b / 2) k
      else if a <? b then my_gcd_loop f a ((b - a) / 2) k
      else my_gcd_loop f ((a - b) / 2) b k
  end.
Definition my_gcd (fuel : nat) (a0 b0 : Z) : outcome Z :=
  let a := a0 * Z.sgn a0 in
  let b := b0 * Z.sgn b0 in
  if (b =? 1) || (a =? b) then Ok b else my_gcd_loop fuel a b 0.
