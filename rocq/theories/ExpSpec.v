(** Exponential sums and short rational generating functions: vocabulary.
    Series.v: [conv] is the Cauchy product, [sexp a] the coefficients a^n/n! of exp(at),
    [sone] the series 1, [shift] multiplication by t; [qsum f l] sums f over l. *)
From Coq Require Import QArith.
From Verif Require Import Common IntegMath Series.
Open Scope Q_scope.

(** (1 - exp(xt)) / (xt): the coefficient of t^k is -x^k/(k+1)!. *)
Definition exp_quotient (x : Z) : ser := fun k => - (inject_Z x ^ Z.of_nat k / qfact (S k)).
Definition product (l : list ser) : ser := fold_right conv sone l.
(** 1 - exp(rt) *)
Definition one_minus_exp (r : Z) : ser := fun k => sone k - sexp (inject_Z r) k.
(** The sum of exp(st) over the list. *)
Definition exp_sum (l : list Z) : ser := fun k => qsum (fun s => sexp (inject_Z s) k) l.
(** q is the constant term of the Laurent series (sum of exp(st), s in ss) / prod (1 - exp(rt)):
    F is t^d times it. *)
Definition exponential_residue (rs ss : list Z) (q : Q) : Prop :=
  exists F, conv F (product (map one_minus_exp rs)) ~= Nat.iter (length rs) shift (exp_sum ss) /\ F (length rs) == q.

(** Polynomials in z_1^+-1..z_n^+-1: lists of (coefficient, exponent vector). *)
Notation gpoly := (list (Z * list Z)).
Fixpoint vadd (u v : list Z) : list Z := match u, v with x :: u', y :: v' => (x + y)%Z :: vadd u' v' | _, _ => [] end.
Definition gmul (p q : gpoly) : gpoly := flat_map (fun a => map (fun b => ((fst a * fst b)%Z, vadd (snd a) (snd b))) q) p.
Definition gscale (c : Z) (p : gpoly) : gpoly := map (fun a => ((c * fst a)%Z, snd a)) p.
Definition gone (n : nat) : gpoly := [(1%Z, repeat 0%Z n)].
(** The coefficient of a monomial. *)
Fixpoint gcoeff (p : gpoly) (v : list Z) : Z :=
  match p with [] => 0%Z | a :: p' => if list_eq_dec Z.eq_dec (snd a) v then (fst a + gcoeff p' v)%Z else gcoeff p' v end.
Definition gequal (p q : gpoly) : Prop := forall v, gcoeff p v = gcoeff q v.
(** prod (1 - z^r) and the sum of z^x *)
Definition gdenom (n : nat) (rays : list (list Z)) : gpoly := fold_right (fun r d => gmul [(1%Z, repeat 0%Z n); ((-1)%Z, r)] d) (gone n) rays.
Definition gpoints (ps : list (list Z)) : gpoly := map (fun x => (1%Z, x)) ps.
(** The sum of the rational functions coef * (sum of z^p) / prod (1 - z^r) as numerator and
    denominator: a/b + N/D = (aD + Nb)/(bD). *)
Definition grational (n : nat) (cones : list (Z * list (list Z) * list (list Z))) : gpoly * gpoly :=
  fold_right (fun c nd => let '(coef, rays, pts) := c in
     (gmul (gscale coef (gpoints pts)) (snd nd) ++ gmul (fst nd) (gdenom n rays), gmul (gdenom n rays) (snd nd))) ([], gone n) cones.
(** The cones generate exactly the points of S. *)
Definition generates (n : nat) (cones : list (Z * list (list Z) * list (list Z))) (points : list (list Z)) : Prop :=
  gequal (fst (grational n cones)) (gmul (gpoints points) (snd (grational n cones))).
(** Value of a polynomial with the given coefficients. *)
Fixpoint poly_at (l : list Q) (t : Q) : Q := match l with [] => 0 | a :: l' => a + t * poly_at l' t end.
