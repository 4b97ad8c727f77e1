(** Mathematics the cone integration is measured against. *)
From Coq Require Import QArith Permutation.
From Verif Require Import Common IntegSpec ZMat Det.
Open Scope Z_scope.

(** A factor c + e*w, its value at w, and the value of a product. *)
Definition factor_at (w : Q) (f : Z * Z) : Q := (inject_Z (fst f) + inject_Z (snd f) * w)%Q.
Definition product_at (w : Q) (fs : list (Z * Z)) : Q := fold_right (fun f r => (factor_at w f * r)%Q) 1%Q fs.
(** Power series in w: multiplication by c + e*w, by all of a list, and (p + q*w)^N. *)
Definition times_factor (f : Z * Z) (F : nat -> Q) : nat -> Q :=
  fun j => match j with O => (inject_Z (fst f) * F O)%Q | S k => (inject_Z (fst f) * F (S k) + inject_Z (snd f) * F k)%Q end.
Definition times_factors (fs : list (Z * Z)) (F : nat -> Q) : nat -> Q := fold_right times_factor F fs.
Definition binomial_series (p q : Z) (N j : nat) : Q := inject_Z (binom N j * p ^ Z.of_nat (N - j) * q ^ Z.of_nat j).
(** The factors with and without a constant term; the epsilon coefficients of the latter. *)
Definition regular (fs : list (Z * Z)) : list (Z * Z) := filter (fun f => negb (fst f =? 0)) fs.
Definition vanishing (fs : list (Z * Z)) : list Z := map snd (filter (fun f => fst f =? 0) fs).
Definition product (l : list Z) : Z := fold_right Z.mul 1 l.
(** Division of a series by c + e*w (c <> 0), and by all of a list. *)
Definition over_factor (f : Z * Z) (F : nat -> Q) : nat -> Q :=
  fix go (j : nat) : Q := match j with O => (F O / inject_Z (fst f))%Q | S k => ((F (S k) - inject_Z (snd f) * go k) / inject_Z (fst f))%Q end.
Definition over_factors (fs : list (Z * Z)) (F : nat -> Q) : nat -> Q := fold_right over_factor F fs.
(** The coefficient of w^0 in (p + q*w)^N / prod (c + e*w): with k factors e*w without
    constant term, the coefficient of w^k of (p + q*w)^N over the other factors, divided
    by the product of these e. *)
Definition constant_coefficient (p q : Z) (N : nat) (fs : list (Z * Z)) : Q :=
  (over_factors (regular fs) (binomial_series p q N) (length (vanishing fs)) / inject_Z (product (vanishing fs)))%Q.
(** A simplicial cone: vertex and rays; d! times the volume spanned by its rays. *)
Definition ray_matrix (rays : list (list Z)) : zmat := fun j i => nth j (nth i rays []) 0.
(** Lawrence's sum for the form l of degree m over cones in dimension n, the form being
    moved to l + e*w: (-1)^n * n!m!/(n+m)! is left out; one summand per cone. *)
Definition cone_sum (n m : nat) (l e : list Z) (cones : list (list Z * list (list Z))) : Q :=
  sum_over (fun c => (inject_Z (Z.abs (det n (ray_matrix (snd c)))) *
    constant_coefficient (dot l (fst c)) (dot e (fst c)) (m + n) (map (fun r => (dot l r, dot e r)) (snd c)))%Q) cones.
(** A simplex with vertices vs in dimension n = length vs - 1: n! times its volume. *)
Definition edge_matrix (vs : list (list Z)) : zmat := fun j i => nth j (nth (S i) vs []) 0 - nth j (nth 0 vs []) 0.
Definition edge_volume (vs : list (list Z)) : Z := Z.abs (det (length vs - 1) (edge_matrix vs)).
(** The list without its i-th entry. *)
Definition without {A} (i : nat) (l : list A) : list A := firstn i l ++ skipn (S i) l.
(** [c] is the tangent cone of the simplex at its i-th vertex: in some order its rays are
    positive multiples of the edges from there to the other vertices. *)
Definition tangent_cone (vs : list (list Z)) (i : nat) (c : list Z * list (list Z)) : Prop :=
  fst c = nth i vs [] /\ exists ws, Permutation ws (without i vs) /\
    Forall2 (fun r w => length r = length (fst c) /\ exists g, 0 < g /\ forall k, nth k w 0 - nth k (fst c) 0 = g * nth k r 0) (snd c) ws.
(** Value at w of a product given by entries (c, e, k): (c + e*w)^k, but e*w^k if c = 0
    (such an entry stands for the product of k factors without constant term); entries
    with k <= 0 do not count. *)
Definition entry_at (w : Q) (f : Z * Z * Z) : Q :=
  let '(c, e, k) := f in
  if k <=? 0 then 1%Q else if c =? 0 then (inject_Z e * w ^ k)%Q else (factor_at w (c, e) ^ k)%Q.
Definition merged_at (w : Q) (fs : list (Z * Z * Z)) : Q := fold_right (fun f r => (entry_at w f * r)%Q) 1%Q fs.
