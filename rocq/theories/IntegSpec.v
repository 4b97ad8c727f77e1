(** Mathematics the integration code is measured against. *)
From Coq Require Import QArith.
From Verif Require Import Common.
Open Scope Z_scope.

(** Binomial coefficients, by Pascal's rule. *)
Fixpoint binom (n k : nat) : Z :=
  match n, k with
  | _, O => 1
  | O, S _ => 0
  | S n', S k' => binom n' k' + binom n' (S k')
  end.
(** Finite sums and factorials. *)
Fixpoint zsum (f : nat -> Z) (n : nat) : Z := match n with O => 0 | S n' => zsum f n' + f n' end.
Fixpoint zfact (n : nat) : Z := match n with O => 1 | S n' => Z.of_nat n * zfact n' end.
(** Complete homogeneous symmetric polynomial: the sum of all monomials of degree [m] in
    the variables [xs]: choose the power i of the first one. *)
Fixpoint hsym (xs : list Z) (m : nat) : Z :=
  match xs with
  | [] => if (m =? 0)%nat then 1 else 0
  | x :: xs' => zsum (fun i => x ^ Z.of_nat i * hsym xs' (m - i)) (S m)
  end.
(** Value of a linear form. *)
Fixpoint dot (l v : list Z) : Z := match l, v with x :: l', y :: v' => x * y + dot l' v' | _, _ => 0 end.

(** The integral of <l,x>^m over the simplex with vertices s_0..s_d and
    v = d! * volume is  v * m!/(m+d)! * h_m(<l,s_0>,...,<l,s_d>)  (Lasserre-Avrachenkov;
    Baldoni et al., "How to integrate a polynomial over a simplex", cited in the code).
    Below without the factor m!, which the stored coefficient contains. *)
Definition form_integral (vol : Z) (d : nat) (vertices : list (list Z)) (l : list Z) (m : nat) : Q :=
  (inject_Z (vol * hsym (map (dot l) vertices) m) / inject_Z (zfact (d + m)))%Q.

(** Values at a rational point: a linear form, and a monomial. *)
Fixpoint qdot (l : list Z) (x : list Q) : Q :=
  match l, x with a :: l', y :: x' => (inject_Z a * y + qdot l' x')%Q | _, _ => 0%Q end.
Fixpoint qmono (e : list Z) (x : list Q) : Q :=
  match e, x with a :: e', y :: x' => (y ^ a * qmono e' x')%Q | _, _ => 1%Q end.

(** Power series in w as coefficient functions: multiplication by (c + w), by all of a
    list, and the coefficients of (x + w)^N. *)
Definition times_lin (c : Z) (F : nat -> Q) : nat -> Q :=
  fun j => match j with O => (inject_Z c * F O)%Q | S k => (inject_Z c * F (S k) + F k)%Q end.
Definition times_lins (cs : list Z) (F : nat -> Q) : nat -> Q := fold_right times_lin F cs.
Definition power_coeff (x : Z) (N j : nat) : Q := inject_Z (binom N j * x ^ Z.of_nat (N - j)).
(** The values different from x, as differences, and how often x occurs. *)
Definition other_diffs (x : Z) (xs : list Z) : list Z := map (fun b => x - b) (filter (fun b => negb (b =? x)) xs).
Definition occurrences (x : Z) (xs : list Z) : nat := length (filter (fun b => b =? x) xs).
(** Sums of rationals over a list. *)
Definition sum_over {A} (f : A -> Q) (l : list A) : Q := fold_right (fun a s => (f a + s)%Q) 0%Q l.
(** A polynomial given by its monomials, and a sum of coef * <l,x>^deg / deg!, at a point. *)
Definition poly_at (l : list (Q * list Z)) (x : list Q) : Q := sum_over (fun t => (fst t * qmono (snd t) x)%Q) l.
Definition forms_at (l : list (Q * Z * list Z)) (x : list Q) : Q :=
  sum_over (fun t => (fst (fst t) * (qdot (snd t) x ^ snd (fst t) / inject_Z (zfact (Z.to_nat (snd (fst t))))))%Q) l.
Definition degree (e : list Z) : Z := fold_right Z.add 0 e.
(** A linear functional on functions of n variables (such as the integral). *)
Definition linear_functional (n : nat) (J : (list Q -> Q) -> Q) : Prop :=
  (forall f g, (forall x, length x = n -> f x == g x)%Q -> (J f == J g)%Q) /\
  (forall f g, (J (fun x => f x + g x) == J f + J g)%Q) /\
  (forall c f, (J (fun x => c * f x) == c * J f)%Q).
