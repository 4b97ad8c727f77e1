(** Model of class rationalVector and the functions on it
    (code/latte/rational.h:97-160, code/latte/rational.cpp:33-136, 662-700, 803-848). *)
From Verif Require Import Common.
Open Scope Z_scope.

(** rational.h:99-105 *)
Record rvec := mkRV {
  enumerator : list Z; denominator : list Z;
  computed : bool;                    (* computed_integer_scale *)
  iscale : list Z; ifactor : Z        (* integer_scale, integer_scale_factor *) }.

(** NTL division of ZZ: an error when dividing by zero. *)
Definition zdiv (a b : Z) : outcome Z := if b =? 0 then Err DivByZero else Ok (a / b).

(** rational.cpp:662-665 static lcm. *)
Definition lcm_code (a b : Z) : outcome Z :=
  bind (zdiv b (Z.gcd a b)) (fun q => Ok (a * q)).

(** rational.cpp:809-810 *)
Fixpoint lcm_loop (acc : Z) (ds : list Z) : outcome Z :=
  match ds with [] => Ok acc | d :: ds' => bind (lcm_code acc d) (fun a => lcm_loop a ds') end.
(** rational.cpp:811-813 *)
Fixpoint scale_loop (f : Z) (ns ds : list Z) : outcome (list Z) :=
  match ns, ds with
  | [], _ => Ok []
  | _ :: _, [] => Err OutOfBounds
  | n :: ns', d :: ds' =>
      bind (zdiv f d) (fun q => bind (scale_loop f ns' ds') (fun r => Ok (n * q :: r)))
  end.

(** rational.cpp:803-815 rationalVector::compute_integer_scale (the two vectors
    have the same length in every reachable object). *)
Definition compute_integer_scale (v : rvec) : outcome rvec :=
  bind (lcm_loop 1 (denominator v)) (fun f =>
  bind (scale_loop f (enumerator v) (denominator v)) (fun w =>
  Ok (mkRV (enumerator v) (denominator v) true w f))).

(** rational.cpp:33-44 *)
Definition rv_zero (n : nat) : rvec := mkRV (repeat 0 n) (repeat 1 n) false [] 0.
(** rational.cpp:46-57 *)
Definition rv_scalar (numer : list Z) (denom : Z) : rvec :=
  mkRV numer (repeat denom (length numer)) true numer denom.
(** rational.cpp:59-65 *)
Definition rv_pair (numer denom : list Z) : outcome rvec :=
  assert_then (Nat.eqb (length numer) (length denom)) (Ok (mkRV numer denom false [] 0)).

Definition in_range {A} (v : rvec) (i : nat) (k : outcome A) : outcome A :=
  if Nat.ltb i (length (enumerator v)) then k else Err OutOfBounds.

(** rational.h:122-130 *)
Definition set_entry (v : rvec) (i : nat) (n d : Z) (lazy : bool) : outcome rvec :=
  in_range v i
  (let v' := mkRV (upd (enumerator v) i n) (upd (denominator v) i d) (computed v) (iscale v) (ifactor v) in
   if lazy then Ok (mkRV (enumerator v') (denominator v') false (iscale v) (ifactor v))
   else compute_integer_scale v').
(** rational.h:141-145 *)
Definition set_numerator (v : rvec) (i : nat) (n : Z) : outcome rvec :=
  in_range v i (compute_integer_scale
    (mkRV (upd (enumerator v) i n) (denominator v) (computed v) (iscale v) (ifactor v))).
(** rational.h:146-150 *)
Definition set_denominator (v : rvec) (i : nat) (d : Z) : outcome rvec :=
  in_range v i (compute_integer_scale
    (mkRV (enumerator v) (upd (denominator v) i d) (computed v) (iscale v) (ifactor v))).

(** rational.cpp:836-845: reduce every coordinate; report whether any changed.
    GCD of 0 and 0 is 0, so 0/0 divides by zero. *)
Fixpoint reduce_loop (ns ds : list Z) (changed : bool) : outcome (list Z * list Z * bool) :=
  match ns, ds with
  | n :: ns', d :: ds' =>
      let g := Z.gcd n d in
      if g =? 1 then
        bind (reduce_loop ns' ds' changed) (fun '(a, b, c) => Ok (n :: a, d :: b, c))
      else
        bind (zdiv n g) (fun n1 => bind (zdiv d g) (fun d1 =>
        bind (reduce_loop ns' ds' true) (fun '(a, b, c) => Ok (n1 :: a, d1 :: b, c))))
  | _, _ => Ok (ns, ds, changed)
  end.
(** rational.cpp:831-848 canonicalizeRationalVector *)
Definition canonicalize_vec (v : rvec) (numOfVars : nat) : outcome rvec :=
  assert_then (Nat.eqb numOfVars (length (denominator v)) && Nat.eqb numOfVars (length (enumerator v)))
  (bind (reduce_loop (enumerator v) (denominator v) false) (fun '(ns, ds, ch) =>
   let v' := mkRV ns ds (computed v && negb ch) (iscale v) (ifactor v) in
   if computed v' then Ok v' else compute_integer_scale v')).

(** rational.cpp:85-94 rationalVector::scalarMultiplication *)
Definition scalar_multiplication (v : rvec) (n d : Z) : outcome rvec :=
  canonicalize_vec
    (mkRV (map (fun x => x * n) (enumerator v)) (map (fun x => x * d) (denominator v)) false (iscale v) (ifactor v))
    (length (enumerator v)).

(** rational.cpp:126-133: the inner loop of normalizeRationalVector over j. *)
Fixpoint normalize_inner (v : rvec) (d : Z) (j count : nat) : outcome rvec :=
  match count with
  | O => Ok v
  | S c =>
      let dj := nth j (denominator v) 1 in
      let g := Z.gcd d dj in
      bind (zdiv dj g) (fun q => bind (set_denominator v j q) (fun v1 =>
      bind (zdiv d g) (fun g' =>
      bind (set_numerator v1 j (nth j (enumerator v1) 0 * g')) (fun v2 =>
      normalize_inner v2 d (S j) c))))
  end.
(** rational.cpp:116-136 normalizeRationalVector; numOfVars is the length. *)
Fixpoint normalize_outer (v : rvec) (n i count : nat) : outcome rvec :=
  match count with
  | O => Ok v
  | S c =>
      let d := nth i (denominator v) 1 in
      bind (if 1 <? d then normalize_inner v d 0 n else Ok v) (fun v' => normalize_outer v' n (S i) c)
  end.
Definition normalize_vec (v : rvec) : outcome rvec :=
  normalize_outer v (length (enumerator v)) 0 (length (enumerator v)).

(** rational.cpp:817-828 scaleRationalVectorToInteger: returns the integer vector
    and the factor; the object's cache may be filled. *)
Definition scale_to_integer (v : rvec) (numOfVars : nat) : outcome (rvec * list Z * Z) :=
  assert_then (Nat.eqb numOfVars (length (denominator v)) && Nat.eqb numOfVars (length (enumerator v)))
  (bind (if computed v then Ok v else compute_integer_scale v) (fun v' =>
   Ok (v', iscale v', ifactor v'))).

(** A history of calls on one object. *)
Inductive rctor := CZero (n : nat) | CScalar (ns : list Z) (d : Z) | CPair (ns ds : list Z).
Inductive rop :=
| RSetEntry (i : nat) (n d : Z) (lazy : bool)
| RSetNum (i : nat) (n : Z)
| RSetDen (i : nat) (d : Z)
| RScalarMul (n d : Z)
| RCanon
| RNormalize
| RScale.        (* a call of scaleRationalVectorToInteger: may fill the cache *)
Definition rnew (c : rctor) : outcome rvec :=
  match c with CZero n => Ok (rv_zero n) | CScalar ns d => Ok (rv_scalar ns d) | CPair ns ds => rv_pair ns ds end.
Definition rstep (v : rvec) (o : rop) : outcome rvec :=
  match o with
  | RSetEntry i n d lazy => set_entry v i n d lazy
  | RSetNum i n => set_numerator v i n
  | RSetDen i d => set_denominator v i d
  | RScalarMul n d => scalar_multiplication v n d
  | RCanon => canonicalize_vec v (length (enumerator v))
  | RNormalize => normalize_vec v
  | RScale => bind (scale_to_integer v (length (enumerator v))) (fun '(v', _, _) => Ok v')
  end.
Fixpoint rrun (v : rvec) (p : list rop) : outcome rvec :=
  match p with [] => Ok v | o :: p' => bind (rstep v o) (fun v' => rrun v' p') end.

(** rational.cpp:669-700 constructRay *)
Fixpoint ray_loop (wf vf : Z) (w v : list Z) : list Z :=
  match w, v with a :: w', b :: v' => wf * a - vf * b :: ray_loop wf vf w' v' | _, _ => [] end.
Fixpoint div_all (l : list Z) (g : Z) : outcome (list Z) :=
  match l with [] => Ok [] | x :: l' => bind (zdiv x g) (fun q => bind (div_all l' g) (fun r => Ok (q :: r))) end.
Definition construct_ray (v w : rvec) (numOfVars : nat) : outcome (list Z) :=
  bind (scale_to_integer v numOfVars) (fun '(_, v_int, v_scale) =>
  bind (scale_to_integer w numOfVars) (fun '(_, w_int, w_scale) =>
  bind (lcm_code v_scale w_scale) (fun common =>
  bind (zdiv common w_scale) (fun w_factor =>
  bind (zdiv common v_scale) (fun v_factor =>
  let result := ray_loop w_factor v_factor w_int v_int in
  match result with
  | [] => Err OutOfBounds                              (* result[0] of an empty vector *)
  | x :: rest =>
      let g := Z.abs (fold_left Z.gcd rest x) in
      if g =? 1 then Ok result else div_all result g
  end))))).
