(** Volumes and integrals over simplices with rational vertices. *)
From Coq Require Import QArith Qabs.
From Verif Require Import Common Rational RationalSpec IntegSpec Det.
Open Scope Z_scope.

(** Determinant of a rational matrix (first n rows and columns), by Laplace expansion. *)
Fixpoint qdet (n : nat) (A : nat -> nat -> Q) : Q :=
  match n with
  | O => 1%Q
  | S n' => sum_over (fun j => (A 0%nat j * (inject_Z (sgn_of j) * qdet n' (fun a b => A (S a) (skip j b))))%Q) (seq 0 (S n'))
  end.
(** The volume spanned by the edges from the first of n+1 points to the others. *)
Definition parallelepiped (n : nat) (ps : list (list Q)) : Q :=
  Qabs (qdet n (fun i k => (nth k (nth (S i) ps []) 0 - nth k (nth 0 ps []) 0)%Q)).
(** The volume of the simplex. *)
Definition simplex_volume (n : nat) (ps : list (list Q)) : Q := (parallelepiped n ps / inject_Z (zfact n))%Q.
(** Complete homogeneous symmetric polynomial of degree m. *)
Fixpoint qhsym (xs : list Q) (m : nat) : Q :=
  match xs with
  | [] => if (m =? 0)%nat then 1%Q else 0%Q
  | x :: xs' => sum_over (fun i => (x ^ Z.of_nat i * qhsym xs' (m - i))%Q) (seq 0 (S m))
  end.
(** The integral of <l,x>^m / m! over the simplex: n!vol/(n+m)! * h_m of the values at the
    vertices (the formula of IntegSpec.form_integral, for rational vertices).  For m = 0
    it is the volume. *)
Definition power_integral (n : nat) (ps : list (list Q)) (l : list Z) (m : nat) : Q :=
  (parallelepiped n ps * qhsym (map (qdot l) ps) m / inject_Z (zfact (n + m)))%Q.
(** The integral of sum coef * <l,x>^deg/deg! over a collection of simplices. *)
Definition forms_integral (n : nat) (simplices : list (list (list Q))) (fs : list (rat * Z * list Z)) : Q :=
  sum_over (fun f => (value (fst (fst f)) * sum_over (fun ps => power_integral n ps (snd f) (Z.to_nat (snd (fst f)))) simplices)%Q) fs.
(** The simplices spanned by the points with the given indices. *)
Definition simplices_of (ps : list (list Q)) (idx : list (list nat)) : list (list (list Q)) :=
  map (map (fun i => nth i ps [])) idx.
(** The rays generate the cone over the points: ray i is a positive multiple of (p_i, 1). *)
Definition cone_over (n : nat) (ps : list (list Q)) (rays : list (list Z)) : Prop :=
  Forall2 (fun p r => length p = n /\ length r = S n /\ 0 < nth n r 0 /\
    forall k, (k < n)%nat -> (inject_Z (nth k r 0%Z) == inject_Z (nth n r 0%Z) * nth k p 0)%Q) ps rays.
(** The simplices are spanned by n+1 of the rays each, those with the given indices. *)
Definition selected (n : nat) (rays : list (list Z)) (simplices : list (list (list Z))) (idx : list (list nat)) : Prop :=
  simplices = map (map (fun i => nth i rays [])) idx /\
  Forall (fun is => length is = S n /\ Forall (fun i => (i < length rays)%nat) is) idx.

(** The monomials of a polynomial whose coefficient is not zero. *)
Definition nonzero_monomials (l : list (rat * list Z)) : list (rat * list Z) := filter (fun p => negb (Qeq_bool (value (fst p)) 0)) l.

(** The volume of a collection of simplices. *)
Definition total_volume (n : nat) (simplices : list (list (list Q))) : Q := sum_over (simplex_volume n) simplices.
(** J integrates the powers up to D of linear forms over the simplices (J is any linear
    functional, the integral in particular): its value on polynomials of degree <= D is
    the integral. *)
Definition integrates (n : nat) (simplices : list (list (list Q))) (D : Z) (J : (list Q -> Q) -> Q) : Prop :=
  linear_functional n J /\
  forall f m, length f = n -> Z.of_nat m <= D ->
    (J (fun x => qdot f x ^ Z.of_nat m) == inject_Z (zfact m) * sum_over (fun ps => power_integral n ps f m) simplices)%Q.

(** The polytope with the vertices ps, multiplied by k. *)
Definition qscale (k : Z) (p : list Q) : list Q := map (fun x => (inject_Z k * x)%Q) p.
