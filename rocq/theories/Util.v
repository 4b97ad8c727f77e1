(** Small utilities: timing.cpp, latte_gmp.cpp, latte_ntl.cpp, latte_random.cpp.
    The NTL/GMP byte routines and generators are modelled by their documented effect. *)
From Verif Require Import Common.
Open Scope Z_scope.

(** * Timer (timing.h:27-40, timing.cpp:31-83).  A clock reading is the tick sum
    returned by times(); get_seconds is reported in ticks (the C++ divides by the
    constant tick rate).  [start_time] of a fresh timer is uninitialised: [None]. *)
Record timer := mkT { ticks_elapsed : Z; start_time : option Z; started : bool }.
Inductive top := TStart | TStop | TClear | TGet.
Definition timer_new : timer := mkT 0 None false.
(** timing.cpp:45-83.  [now] is what times() returns during the call. *)
Definition timer_step (t : timer) (op : top) (now : Z) : outcome (timer * option Z) :=
  match op with
  | TStart => assert_then (negb (started t)) (Ok (mkT (ticks_elapsed t) (Some now) true, None))
  | TStop => assert_then (started t)
      (match start_time t with
       | None => Err DanglingPtr
       | Some s => Ok (mkT (ticks_elapsed t + now - s) (start_time t) false, None)
       end)
  | TClear => assert_then (negb (started t)) (Ok (mkT 0 (start_time t) (started t), None))
  | TGet => assert_then (negb (started t)) (Ok (t, Some (ticks_elapsed t)))
  end.
Fixpoint timer_run (t : timer) (ops : list (top * Z)) : outcome (timer * list (option Z)) :=
  match ops with
  | [] => Ok (t, [])
  | (op, now) :: ops' => bind (timer_step t op now) (fun '(t1, r) =>
      bind (timer_run t1 ops') (fun '(t2, rs) => Ok (t2, r :: rs)))
  end.

(** * Big integers as bytes, least significant first. *)
Definition num_bits (z : Z) : Z := if z =? 0 then 0 else Z.log2 (Z.abs z) + 1.
(** NTL NumBytes *)
Definition num_bytes (z : Z) : nat := Z.to_nat ((num_bits z + 7) / 8).
(** NTL BytesFromZZ(p, z, n): the n low bytes of |z|. *)
Fixpoint bytes_from (z : Z) (n : nat) : list Z :=
  match n with O => [] | S k => Z.abs z mod 256 :: bytes_from (Z.abs z / 256) k end.
(** GMP mpz_import(order -1, size 1), NTL ZZFromBytes. *)
Fixpoint of_bytes (bs : list Z) : Z := match bs with [] => 0 | b :: t => b + 256 * of_bytes t end.
(** latte_gmp.cpp:34-45 convert_ZZ_to_mpz *)
Definition zz_to_mpz (zz : Z) : Z :=
  let data := bytes_from zz (num_bytes zz) in
  let mpz := of_bytes data in
  if Z.sgn zz =? -1 then - mpz else mpz.
(** GMP mpz_sizeinbase(z, 2): 1 for zero. *)
Definition sizeinbase2 (z : Z) : Z := if z =? 0 then 1 else Z.log2 (Z.abs z) + 1.
(** GMP mpz_export into a buffer of [room] bytes: writes as many bytes as |z| needs,
    returns them (their number is the new count); writing past the buffer is UB. *)
Definition mpz_export (room : Z) (z : Z) : outcome (list Z) :=
  let n := num_bytes z in
  if Z.of_nat n <=? room then Ok (bytes_from z n) else Err OutOfBounds.
(** latte_gmp.cpp:47-66 convert_mpz_to_ZZ *)
Definition mpz_to_zz (mpz : Z) : outcome Z :=
  let numb := 8 in
  let count := (sizeinbase2 mpz + numb - 1) / numb in
  bind (mpz_export count mpz) (fun data =>
  let result := of_bytes data in
  Ok (if Z.sgn mpz =? -1 then - result else result)).

(** latte_ntl.cpp:51-60 convert_ZZ_to_int; [Exited] is abort() here. *)
Definition INT_MAX : Z := 2 ^ 31 - 1.
Definition INT_MIN : Z := - 2 ^ 31.
Definition zz_to_int (zz : Z) : outcome Z :=
  let z := zz_to_mpz zz in
  if INT_MAX <? Z.abs z then Err Exited else Ok z.

(** latte_ntl.cpp:27-49 InnerProductModulo: NTL InnerProduct stops at the shorter
    vector; NTL rem rounds towards minus infinity and aborts on modulus 0. *)
Fixpoint inner_product (a b : list Z) : Z :=
  match a, b with x :: a', y :: b' => x * y + inner_product a' b' | _, _ => 0 end.
Definition inner_product_modulo (a b : list Z) (module : Z) : outcome Z :=
  if module =? 0 then Err DivByZero else Ok (inner_product a b mod module).

(** latte_random.cpp:35-40.  RAND_MAX is 2^31-1; [r] is what rand() returns.  The
    product is a double: [rnd] is the rounding of an exact product to a double (an
    integer again, since products here are below 2^62); dividing by 2^31 is exact and
    the cast truncates. *)
Definition RAND_MAX1 : Z := 2 ^ 31.
Definition int_range (z : Z) : bool := (INT_MIN <=? z) && (z <=? INT_MAX).
Definition random_int (rnd : Z -> Z) (from to r : Z) : outcome Z :=
  let d := to - from in
  if negb (int_range d) then Err IntOverflow
  else let range := d + 1 in
  if negb (int_range range) then Err IntOverflow
  else let v := from + Z.quot (rnd (range * r)) RAND_MAX1 in
  if negb (int_range v) then Err IntOverflow else Ok v.
(** latte_random.cpp:42-47; NTL RandomBnd(n) is in [0,n) for n > 0 and 0 otherwise. *)
Definition random_ZZ (bnd : Z -> Z) (from to : Z) : Z := from + bnd (to - from + 1).
