(** Model of the exponential substitution: code/latte/todd/todd-expansion.cpp,
    code/latte/ExponentialSubst.cpp, code/latte/ExponentialEhrhart.cpp.
    mpq_class values are rationals (Q); they are compared with ==.  Simplifications: a cone is
    its coefficient, rays and the scalar products of its parallelepiped points with the
    generic vector (Piped.scalar_products, compared in the theorems); output and memory
    management are not modelled; the random generic vectors are a list. *)
From Coq Require Import QArith.
From Verif Require Import Common IntegSpec Piped.
Open Scope Q_scope.

Definition qnat (n : nat) : Q := inject_Z (Z.of_nat n).
(** todd-expansion.cpp:24-33 *)
Fixpoint exp_loop (k i : nat) (coeff : Q) : list Q := match k with O => [] | S k' => coeff :: exp_loop k' (S i) (coeff / qnat (S i)) end.
Definition taylor_exponential (order : nat) : list Q := exp_loop (order + 1) 0 1.
(** todd-expansion.cpp:45-52: one more coefficient; the sums. *)
Fixpoint sum_to (k : nat) (f : nat -> Q) : Q := match k with O => 0 | S k' => sum_to k' f + f k' end.
Definition recip_next (a b : list Q) : Q :=
  let i := length b in - sum_to i (fun j => nth (S j) a 0 * nth (i - S j) b 0) / nth 0 a 0.
Fixpoint recip_loop (k : nat) (a b : list Q) : list Q := match k with O => b | S k' => recip_loop k' a (b ++ [recip_next a b]) end.
(** todd-expansion.cpp:35-54 taylor_reciprocal *)
Definition taylor_reciprocal (a : list Q) : outcome (list Q) :=
  match a with
  | [] => Err OutOfBounds
  | a0 :: a' => if Qeq_bool a0 0 then Err DivByZero else Ok (recip_loop (length a') a [1 / a0])
  end.
(** todd-expansion.cpp:56-67: t/(1-exp(t)) *)
Definition taylor_for_todd (order : nat) : outcome (list Q) :=
  let e := taylor_exponential (order + 2) in
  taylor_reciprocal (map (fun i => - nth (i + 1) e 0) (seq 0 (order + 1))).
(** todd-expansion.cpp:69-83 *)
Definition taylor_product_aux (a b : list Q) : list Q :=
  map (fun i => sum_to (S i) (fun j => nth j a 0 * nth (i - j) b 0)) (seq 0 (Nat.min (length a) (length b))).
(** todd-expansion.cpp:85-99 *)
Definition taylor_product (l : list (list Q)) : list Q :=
  match l with [] => [1] | p :: l' => fold_left taylor_product_aux l' p end.
(** todd-expansion.cpp:110-121: t -> x t *)
Fixpoint substitute (x : Z) (coefficient : Z) (l : list Q) : list Q :=
  match l with [] => [] | s :: l' => (inject_Z coefficient * s) :: substitute x (coefficient * x) l' end.
(** todd-expansion.cpp:101-124 *)
Definition evaluate_todd (x : list Z) : outcome (list Q) :=
  bind (taylor_for_todd (length x)) (fun factor => Ok (taylor_product (map (fun xi => substitute xi 1 factor) x))).

(** ExponentialSubst.cpp:82-92: weights[k] *)
Fixpoint weights_loop (k : nat) (i : nat) (fact : Z) (dimension : nat) (todds : list Q) (prod : Z) : list Q :=
  match k with O => [] | S k' => nth (dimension - i) todds 0 / inject_Z prod / inject_Z fact :: weights_loop k' (S i) (fact * Z.of_nat (S i)) dimension todds prod end.
(** ExponentialSubst.cpp:56-93; [Thrown] is NotGenericException. *)
Definition residue_weights (g : list Z) (rays : list (list Z)) : outcome (list Q) :=
  let sp := map (zdot g) rays in
  if existsb (fun s => Z.eqb s 0) sp then Err Thrown
  else bind (evaluate_todd sp) (fun todds => Ok (weights_loop (length rays + 1) 0 1 (length rays) todds (fold_left Z.mul sp 1%Z))).
(** ExponentialSubst.cpp:106-130 compute_sums_of_scalar_powers: the inner loop over k, then
    the loop over the points. *)
Fixpoint add_powers (sum : list Z) (inner pw : Z) : list Z := match sum with [] => [] | s :: sum' => (s + pw)%Z :: add_powers sum' inner (pw * inner)%Z end.
Definition sums_of_powers (n : nat) (sps : list Z) : list Z := fold_left (fun sum inner => add_powers sum inner 1%Z) sps (repeat 0%Z (n + 1)).

(** A cone as used here: coefficient, rays, scalar products of the points, scalar product
    of the vertex used for dilation. *)
Record econe := mkE { e_coef : Z; e_rays : list (list Z); e_sps : list Z; e_vertex : Z }.
(** ExponentialSubst.cpp:150-176 *)
Definition residue_single (n : nat) (g : list Z) (c : econe) : outcome Q :=
  bind (residue_weights g (e_rays c)) (fun w =>
  let sum := sums_of_powers n (e_sps c) in
  if (length sum <? length w)%nat then Err OutOfBounds
  else Ok (inject_Z (e_coef c) * sum_to (length w) (fun k => inject_Z (nth k sum 0%Z) * nth k w 0))).
(** ExponentialSubst.cpp:184-190 *)
Fixpoint residue_cones (n : nat) (g : list Z) (cs : list econe) (acc : Q) : outcome Q :=
  match cs with [] => Ok acc | c :: cs' => bind (residue_single n g c) (fun r => residue_cones n g cs' (acc + r)) end.
(** ExponentialSubst.cpp:178-197 computeExponentialResidue, for the generic vectors guessed in
    turn; [cones g] are the cones with their scalar products for g. *)
Fixpoint residue_list (n : nat) (guesses : list (list Z)) (cones : list Z -> list econe) : outcome Z :=
  match guesses with
  | [] => Err OutOfFuel
  | g :: gs => match residue_cones n g (cones g) 0 with
               | Err Thrown => residue_list n gs cones
               | Err e => Err e
               | Ok r => let r' := Qred r in if Pos.eqb (Qden r') 1 then Ok (Qnum r') else Err AssertFail
               end
  end.
(** ExponentialEhrhart.cpp:50-62: the loop over n (l = i, i+1, ...). *)
Fixpoint ehrhart_loop (i : nat) (n : nat) (w : list Q) (sum : list Z) (coef e pw : Z) (coeffs : list Q) : list Q :=
  match coeffs with
  | [] => []
  | a :: coeffs' =>
      let x := sum_to (n + 1 - i) (fun k => inject_Z (binom (i + k) i) * nth (i + k) w 0 * inject_Z (nth k sum 0%Z)) in
      a + inject_Z coef * inject_Z pw * x :: ehrhart_loop (S i) n w sum coef e (pw * e)%Z coeffs'
  end.
(** ExponentialEhrhart.cpp:34-69 ConsumeCone; None is the status -1 (not generic). *)
Definition ehrhart_consume (n : nat) (g : list Z) (c : econe) (coeffs : list Q) : outcome (option (list Q)) :=
  match residue_weights g (e_rays c) with
  | Err Thrown => Ok None
  | Err e => Err e
  | Ok w => if (length w <=? n)%nat then Err OutOfBounds
            else Ok (Some (ehrhart_loop 0 n w (sums_of_powers n (e_sps c)) (e_coef c) (e_vertex c) 1 coeffs))
  end.
(** The cones of one attempt in turn (dec.cpp:143-156). *)
Fixpoint ehrhart_cones (n : nat) (g : list Z) (cs : list econe) (coeffs : list Q) : outcome (option (list Q)) :=
  match cs with
  | [] => Ok (Some coeffs)
  | c :: cs' => bind (ehrhart_consume n g c coeffs) (fun r => match r with None => Ok None | Some coeffs' => ehrhart_cones n g cs' coeffs' end)
  end.
(** dec.cpp:137-162 barvinokDecomposition_List with ExponentialEhrhart.cpp:25-32: every attempt
    starts from zero coefficients. *)
Fixpoint ehrhart_list (n : nat) (guesses : list (list Z)) (cones : list Z -> list econe) : outcome (list Q) :=
  match guesses with
  | [] => Err OutOfFuel
  | g :: gs => bind (ehrhart_cones n g (cones g) (repeat 0 (n + 1))) (fun r => match r with Some l => Ok l | None => ehrhart_list n gs cones end)
  end.
