(** Texts of rational functions: a reader of Maple's arithmetic expressions, and values. *)
From Coq Require Import QArith String Ascii DecimalString.
From Verif Require Import Common ExpSpec.
Open Scope Q_scope.

Notation chars := (list ascii).
Inductive mexpr :=
| MInt (z : Z)
| MVar (i : nat)
| MNeg (a : mexpr)
| MAdd (a b : mexpr) | MSub (a b : mexpr) | MMul (a b : mexpr) | MDiv (a b : mexpr) | MPow (a b : mexpr).
(** The value when x[i] is x i; none when there is a division by zero or an exponent that is
    not an integer. *)
Definition both (f : Q -> Q -> option Q) (a b : option Q) : option Q := match a, b with Some p, Some q => f p q | _, _ => None end.
Fixpoint mvalue (x : nat -> Q) (e : mexpr) : option Q :=
  match e with
  | MInt z => Some (inject_Z z)
  | MVar i => Some (x i)
  | MNeg a => option_map Qopp (mvalue x a)
  | MAdd a b => both (fun p q => Some (p + q)) (mvalue x a) (mvalue x b)
  | MSub a b => both (fun p q => Some (p - q)) (mvalue x a) (mvalue x b)
  | MMul a b => both (fun p q => Some (p * q)) (mvalue x a) (mvalue x b)
  | MDiv a b => both (fun p q => if Qeq_bool q 0 then None else Some (p / q)) (mvalue x a) (mvalue x b)
  | MPow a b => both (fun p q => let q' := Qred q in if negb (Pos.eqb (Qden q') 1) || (Qeq_bool p 0 && (Qnum q' <? 0)%Z) then None else Some (p ^ Qnum q')) (mvalue x a) (mvalue x b)
  end.

(** The grammar:
      sum     ::= ["-"] product (("+" | "-") product)*
      product ::= power (("*" | "/") power)*
      power   ::= atom ["^" atom]
      atom    ::= digits | "x[" digits "]" | "(" sum ")"
    with white space between the symbols. *)
Definition white (c : ascii) : bool := let k := nat_of_ascii c in ((k =? 32) || ((9 <=? k) && (k <=? 13)))%nat.
Fixpoint skip (s : chars) : chars := match s with c :: s' => if white c then skip s' else s | [] => [] end.
Definition digit (c : ascii) : option Z := let k := nat_of_ascii c in if ((48 <=? k) && (k <=? 57))%nat then Some (Z.of_nat (k - 48)) else None.
(** The number written at the front of s, after the digits of which acc is the value. *)
Fixpoint number (acc : Z) (s : chars) : Z * chars :=
  match s with
  | c :: s' => match digit c with Some k => number (10 * acc + k) s' | None => (acc, s) end
  | [] => (acc, [])
  end.
Definition starts (c : ascii) (s : chars) : option chars := match skip s with a :: s' => if Ascii.eqb a c then Some s' else None | [] => None end.
Definition atom (sum : chars -> option (mexpr * chars)) (s : chars) : option (mexpr * chars) :=
  match skip s with
  | [] => None
  | c :: s' =>
      match digit c with
      | Some _ => let '(z, r) := number 0 (c :: s') in Some (MInt z, r)
      | None =>
          if Ascii.eqb c "(" then match sum s' with Some (e, r) => match starts ")" r with Some r' => Some (e, r') | None => None end | None => None end
          else if Ascii.eqb c "x" then
            match starts "[" s' with
            | Some (k :: r) => match digit k with
                               | Some _ => let '(i, r1) := number 0 (k :: r) in match starts "]" r1 with Some r2 => Some (MVar (Z.to_nat i), r2) | None => None end
                               | None => None end
            | _ => None
            end
          else None
      end
  end.
Definition power (sum : chars -> option (mexpr * chars)) (s : chars) : option (mexpr * chars) :=
  match atom sum s with
  | None => None
  | Some (a, r) => match starts "^" r with Some r1 => match atom sum r1 with Some (b, r2) => Some (MPow a b, r2) | None => None end | None => Some (a, r) end
  end.
(** After the factor a; at most k more factors. *)
Fixpoint more_factors (k : nat) (sum : chars -> option (mexpr * chars)) (a : mexpr) (s : chars) : option (mexpr * chars) :=
  match starts "*" s, starts "/" s with
  | Some r, _ => match k with O => None | S k' => match power sum r with Some (b, r1) => more_factors k' sum (MMul a b) r1 | None => None end end
  | _, Some r => match k with O => None | S k' => match power sum r with Some (b, r1) => more_factors k' sum (MDiv a b) r1 | None => None end end
  | None, None => Some (a, s)
  end.
Definition product (k : nat) (sum : chars -> option (mexpr * chars)) (s : chars) : option (mexpr * chars) :=
  match power sum s with Some (a, r) => more_factors k sum a r | None => None end.
Fixpoint more_terms (k l : nat) (sum : chars -> option (mexpr * chars)) (a : mexpr) (s : chars) : option (mexpr * chars) :=
  match starts "+" s, starts "-" s with
  | Some r, _ => match k with O => None | S k' => match product l sum r with Some (b, r1) => more_terms k' l sum (MAdd a b) r1 | None => None end end
  | _, Some r => match k with O => None | S k' => match product l sum r with Some (b, r1) => more_terms k' l sum (MSub a b) r1 | None => None end end
  | None, None => Some (a, s)
  end.
(** The fuel bounds the nesting and the lengths of sums and products. *)
Fixpoint sum (fuel : nat) (s : chars) : option (mexpr * chars) :=
  match fuel with
  | O => None
  | S f =>
      match starts "-" s with
      | Some r => match product f (sum f) r with Some (a, r1) => more_terms f f (sum f) (MNeg a) r1 | None => None end
      | None => match product f (sum f) s with Some (a, r1) => more_terms f f (sum f) a r1 | None => None end
      end
  end.
(** The expression written in a text; the length of the text is enough fuel. *)
Definition reads (s : chars) : option mexpr :=
  match sum (S (length s)) s with Some (e, r) => match skip r with [] => Some e | _ => None end | None => None end.

(** x_0^v_0 x_1^v_1 ... *)
Fixpoint monomial (x : nat -> Q) (v : list Z) : Q := match v with [] => 1 | e :: v' => x 0%nat ^ e * monomial (fun k => x (S k)) v' end.
(** The sum of the monomials of the points. *)
Definition point_sum (x : nat -> Q) (points : list (list Z)) : Q := fold_right (fun p s => monomial x p + s) 0 points.
(** coef * (sum of x^p) / prod (1 - x^r), added up over the cones. *)
Definition rational_value (x : nat -> Q) (cones : list (Z * list (list Z) * list (list Z))) : Q :=
  fold_right (fun c s => let '(coef, rays, pts) := c in inject_Z coef * point_sum x pts / fold_right (fun r d => (1 - monomial x r) * d) 1 rays + s) 0 cones.
(** Multiplying a function on integer points, taken as a series, by a polynomial. *)
Definition times_series (p : gpoly) (F : list Z -> Z) (x : list Z) : Z := fold_right (fun a s => (fst a * F (vadd x (map Z.opp (snd a))) + s)%Z) 0%Z p.
(** The sum of the rational functions, brought to a common denominator D with numerator N, has
    the expansion F: D F = N. *)
Definition expands (n : nat) (cones : list (Z * list (list Z) * list (list Z))) (F : list Z -> Z) : Prop :=
  forall x, length x = n -> times_series (snd (grational n cones)) F x = gcoeff (fst (grational n cones)) x.
(** The values at which none of the denominators is zero. *)
Definition regular (n : nat) (cones : list (Z * list (list Z) * list (list Z))) (x : nat -> Q) : Prop :=
  (forall k, (k < n)%nat -> ~ x k == 0) /\ forall c r, In c cones -> In r (snd (fst c)) -> ~ monomial x r == 1.
(** A text for the sum of rational functions: an expression with its value; no text for no
    cones. *)
Definition stands (n : nat) (t : chars) (cones : list (Z * list (list Z) * list (list Z))) : Prop :=
  t = [] /\ cones = [] \/ exists e, reads t = Some e /\ forall x, regular n cones x -> exists q, mvalue x e = Some q /\ q == rational_value x cones.
(** A text for the polynomial: the sum of the monomials of the points, wherever the
    denominators x^r - 1, r in N, are not zero; no text for no points. *)
Definition stands_for_points (n : nat) (t : chars) (N : list (list Z)) (points : list (list Z)) : Prop :=
  t = [] /\ points = [] \/ exists e, reads t = Some e /\
  forall x, (forall k, (k < n)%nat -> ~ x k == 0) -> (forall r, In r N -> ~ monomial x r == 1) -> exists q, mvalue x e = Some q /\ q == point_sum x points.
Definition nonzero_vectors (n : nat) (N : list (list Z)) : Prop := forall r, In r N -> length r = n /\ exists k, (k < n)%nat /\ nth k r 0%Z <> 0%Z.
