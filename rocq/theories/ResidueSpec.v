(** Values of rational functions at t = 1.
    Series.v: [conv] is the Cauchy product, [sone] the series 1, [shift] multiplication by s. *)
From Coq Require Import QArith.
From Verif Require Import Common IntegMath Series ExpSpec.
Open Scope Q_scope.

(** (1+s)^a for an integer a: the coefficients a (a-1) ... (a-k+1) / k!. *)
Fixpoint bser (a : Z) (k : nat) : Q := match k with O => 1 | S k' => bser a k' * inject_Z (a - Z.of_nat k') / inject_Z (Z.of_nat k) end.
(** 1 - t^r with t = 1 + s *)
Definition one_minus_power (r : Z) : ser := fun k => sone k - bser r k.
Definition power_sum (l : list Z) : ser := fun k => qsum (fun a => bser a k) l.
(** q is the constant term, in the expansion at t = 1, of (sum of t^a, a in l) / prod (1 - t^r):
    F is s^d times that expansion. *)
Definition value_at_one (rs l : list Z) (q : Q) : Prop :=
  exists F, conv F (product (map one_minus_power rs)) ~= Nat.iter (length rs) shift (power_sum l) /\ F (length rs) == q.
