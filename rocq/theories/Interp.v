(** Model of code/latte/interpolation/PolynomialInterpolation.cpp (whole file except
    printing and assignment).  mpq_class is Q with Qeq as equality (GMP keeps canonical
    fractions; canonicalize is then the identity).  The matrix is the list of its rows,
    each of length degree + 2. *)
From Coq Require Import QArith.
From Verif Require Import Common.
Open Scope Q_scope.

Definition qrow := list Q.
(** PolynomialInterpolation.cpp:16-34 constructor: [pi_rows] are the rows, the first
    [pi_count] of them filled; degree + 1 rows of degree + 2 zeros. *)
Record interp := mkInterp { pi_deg : nat; pi_rows : list (list Q); pi_count : nat }.
Definition new_interp (degree : nat) : interp := mkInterp degree (repeat (repeat 0 (degree + 2)) (degree + 1)) O.

(** PolynomialInterpolation.cpp:65-69: 1, x, x^2, ...: [n] entries from [p]. *)
Fixpoint powers (n : nat) (p x : Q) : list Q := match n with O => [] | S n' => p :: powers n' (p * x) x end.
(** PolynomialInterpolation.cpp:52-73 addPoint; exit(1) when there are too many. *)
Definition add_point (t : interp) (x f : Q) : outcome interp :=
  if (pi_deg t + 1 <=? pi_count t)%nat then Err Exited
  else Ok (mkInterp (pi_deg t) (upd (pi_rows t) (pi_count t) (powers (pi_deg t + 1) 1 x ++ [f])) (S (pi_count t))).
Fixpoint add_points (t : interp) (l : list (Q * Q)) : outcome interp :=
  match l with [] => Ok t | (x, f) :: l' => bind (add_point t x f) (fun t' => add_points t' l') end.

(** PolynomialInterpolation.cpp:79-101 evaluatePoly: Horner from the top. *)
Fixpoint horner (l : list Q) (x : Q) : Q := match l with [] => 0 | c :: l' => (horner l' x + c) * x end.
Definition evaluate (x : Q) (poly : list Q) : outcome Q :=
  match poly with [] => Err OutOfBounds | c :: l => Ok (horner l x + c) end.

(** PolynomialInterpolation.cpp:248-256 timesRow, 40-48 addMultRows. *)
Definition times_row (r : list Q) (v : Q) : list Q := map (fun a => a * v) r.
Fixpoint sub_mult (r : list Q) (v : Q) (p : list Q) : list Q :=
  match r, p with a :: r', b :: p' => (a - v * b) :: sub_mult r' v p' | _, _ => [] end.
Definition entry (r : list Q) (c : nat) : Q := nth c r 0.
(** PolynomialInterpolation.cpp:114-118: first row from [i] on with a non-zero entry, or
    rowSize. *)
Fixpoint find_pivot (rows : list (list Q)) (c i : nat) : nat :=
  match rows with [] => i | r :: rows' => if Qeq_bool (entry r c) 0 then find_pivot rows' c (S i) else i end.
(** PolynomialInterpolation.cpp:232-238 swap: matrix[a], matrix[b] must exist. *)
Definition swap_rows (rows : list (list Q)) (a b : nat) : outcome (list (list Q)) :=
  match nth_error rows a, nth_error rows b with
  | Some ra, Some rb => Ok (upd (upd rows a rb) b ra)
  | _, _ => Err OutOfBounds
  end.
(** PolynomialInterpolation.cpp:153-168: eliminate column [c] from every row but [p]. *)
Fixpoint eliminate (rows : list (list Q)) (i p c : nat) (pr : list Q) : outcome (list (list Q)) :=
  match rows with
  | [] => Ok []
  | r :: rows' =>
      bind (if negb (Qeq_bool (entry r c) 0) && negb (i =? p)%nat
            then let r' := sub_mult r (entry r c) pr in
                 if Qeq_bool (entry r' c) 0 then Ok r' else Err Exited
            else Ok r) (fun r' =>
      bind (eliminate rows' (S i) p c pr) (fun rest => Ok (r' :: rest)))
  end.
(** PolynomialInterpolation.cpp:103-173 GE; the loop body for one column. *)
Definition ge_step (rows : list (list Q)) (p c : nat) : outcome (list (list Q)) :=
  let k := find_pivot (skipn p rows) c p in
  bind (swap_rows rows k p) (fun rows1 =>
  let r := nth p rows1 [] in
  if Qeq_bool (entry r c) 0 then Err Exited
  else let pr := times_row r (/ entry r c) in
       if negb (Qeq_bool (entry pr c) 1) then Err Exited
       else eliminate (upd rows1 p pr) O p c pr).
Fixpoint ge (fuel : nat) (rows : list (list Q)) (size p c : nat) : outcome (list (list Q)) :=
  match fuel with
  | O => Ok rows
  | S f =>
      if (c <? size)%nat && (p <? size)%nat then
        (* line 120: currentRow > rowSize skips a column of zeros *)
        if (size <? find_pivot (skipn p rows) c p)%nat then ge f rows size p (S c)
        else bind (ge_step rows p c) (fun rows' => ge f rows' size (S p) (S c))
      else Ok rows
  end.
(** PolynomialInterpolation.cpp:208-217 isSingular. *)
Definition bad_entry (i k : nat) (q : Q) : bool :=
  if negb (Qeq_bool q 0) && negb (i =? k)%nat then true
  else negb (Qeq_bool q 1) && (i =? k)%nat.
Definition is_singular (rows : list (list Q)) (size : nat) : bool :=
  existsb (fun i => existsb (fun k => bad_entry i k (entry (nth i rows []) k)) (seq 0 size)) (seq 0 size).
(** PolynomialInterpolation.cpp:176-192, 223-227 solve = GE then getSolutionVector. *)
Definition solve (t : interp) : outcome (list Q) :=
  let n := (pi_deg t + 1)%nat in
  bind (ge n (pi_rows t) n O O) (fun rows =>
  if is_singular rows n then Err Exited else Ok (map (fun r => entry r n) rows)).
