(** Model of SmithNormalFormIlio (code/latte/genFunction/matrix_ops.cpp:137-398) for n x n
    matrices (the only use, piped.cpp:128).  Matrices are functions; [tab] stores one as a
    table and has no effect on its n x n entries.  NTL's XGCD(d, s, t, a, b) is the parameter
    [xg]: theorems hold for every function meeting its contract ([xgcd_contract] in
    SmithSpec.v). *)
From Verif Require Import Common ZMat.
Open Scope Z_scope.

Definition tab (n : nat) (f : zmat) : zmat :=
  let l := map (fun i => map (f i) (seq 0 n)) (seq 0 n) in fun i j => nth j (nth i l []) 0.
(** Columns o and p become a*col_o + b*col_p and c*col_o + d*col_p; the same for rows. *)
Definition col2 (o p : nat) (a b c d : Z) (M : zmat) : zmat := fun i j =>
  if (j =? o)%nat then a * M i o + b * M i p else if (j =? p)%nat then c * M i o + d * M i p else M i j.
Definition row2 (o p : nat) (a b c d : Z) (M : zmat) : zmat := fun i j =>
  if (i =? o)%nat then a * M o j + b * M p j else if (i =? p)%nat then c * M o j + d * M p j else M i j.
(** matrix_ops.cpp:191-200, 250-259: gcd and coefficients of a list, from its end. *)
Fixpoint tail_gcd (xg : Z -> Z -> Z * Z * Z) (l : list Z) : Z * list Z :=
  match l with
  | [] => (0, [])
  | [x] => (x, [1])
  | x :: l' => let '(g, ts) := tail_gcd xg l' in let '(g', r, s) := xg x g in (g', r :: map (fun t => t * s) ts)
  end.
(** matrix_ops.cpp:202-209: column o += sum of t_k * column (o + 1 + k). *)
Definition addcols (o : nat) (ts : list Z) (M : zmat) : zmat := fun i j =>
  if (j =? o)%nat then M i o + zsum (length ts) (fun k => nth k ts 0 * M i (o + 1 + k)%nat) else M i j.
(** matrix_ops.cpp:261-265 *)
Definition addrows (o : nat) (ts : list Z) (M : zmat) : zmat := fun i j =>
  if (i =? o)%nat then M o j + zsum (length ts) (fun k => nth k ts 0 * M (o + 1 + k)%nat j) else M i j.
(** Columns (rows) j > o lose q_j times column (row) o: lines 211-222, 267-275, 303-313. *)
Definition subcols (o : nat) (q : nat -> Z) (M : zmat) : zmat := fun i j => if (o <? j)%nat then M i j - q j * M i o else M i j.
Definition subrows (o : nat) (q : nat -> Z) (M : zmat) : zmat := fun i j => if (o <? i)%nat then M i j - q i * M o j else M i j.
(** matrix_ops.cpp:137-147 *)
Definition check (n o : nat) (A : zmat) : bool :=
  if A o o =? 0 then true else forallb (fun p => A o p mod A o o =? 0) (seq (o + 1) (n - o - 1)).
(** matrix_ops.cpp:149-224; (A, R) afterwards. *)
Definition elim_row (xg : Z -> Z -> Z * Z * Z) (n o : nat) (A R : zmat) : outcome (zmat * zmat) :=
  let op1 := if A o o =? 0 then (fun M => M)
             else if A o (o + 1)%nat =? 0 then col2 o (o + 1) 0 1 1 0
             else let '(r, x1, x2) := xg (A o o) (A o (o + 1)%nat) in
                  col2 o (o + 1) (A o (o + 1)%nat / r) (- A o o / r) x1 x2 in
  let A1 := tab n (op1 A) in
  let '(g, ts) := tail_gcd xg (map (fun k => A1 o (o + 1 + k)%nat) (seq 0 (n - o - 1))) in
  let A2 := tab n (addcols o ts A1) in
  if (g =? 0) && negb (forallb (fun p => A2 o p =? 0) (seq (o + 1) (n - o - 1))) then Err DivByZero
  else let q := fun j => if A2 o j =? 0 then 0 else A2 o j / g * Z.sgn (A2 o o) in
       Ok (tab n (subcols o q A2), tab n (subcols o q (addcols o ts (tab n (op1 R))))).
(** matrix_ops.cpp:226-277; (A, L) afterwards. *)
Definition elim_col (xg : Z -> Z -> Z * Z * Z) (n o : nat) (A L : zmat) : outcome (zmat * zmat) :=
  let op1 := if A o o =? 0 then (fun M => M)
             else if A (o + 1)%nat o =? 0 then row2 o (o + 1) 0 1 1 0
             else let '(r, x1, x2) := xg (A o o) (A (o + 1)%nat o) in
                  row2 o (o + 1) (A (o + 1)%nat o / r) (- A o o / r) x1 x2 in
  let A1 := tab n (op1 A) in
  let '(g, ts) := tail_gcd xg (map (fun k => A1 (o + 1 + k)%nat o) (seq 0 (n - o - 1))) in
  let A2 := tab n (addrows o ts A1) in
  if (g =? 0) && negb (forallb (fun p => A2 p o =? 0) (seq (o + 1) (n - o - 1))) then Err DivByZero
  else let q := fun i => if A2 i o =? 0 then 0 else A2 i o / g * Z.sgn (A2 o o) in
       Ok (tab n (subrows o q A2), tab n (subrows o q (addrows o ts (tab n (op1 L))))).
(** matrix_ops.cpp:283-288 *)
Fixpoint sweep (fuel : nat) (xg : Z -> Z -> Z * Z * Z) (n o : nat) (A L R : zmat) : outcome (zmat * zmat * zmat) :=
  match fuel with
  | O => Err OutOfFuel
  | S f =>
      bind (elim_row xg n o A R) (fun '(A1, R1) =>
      bind (elim_col xg n o A1 L) (fun '(A2, L1) =>
      if check n o A2 then Ok (A2, L1, R1) else sweep f xg n o A2 L1 R1))
  end.
(** matrix_ops.cpp:290-294, 316-320: row o times -1. *)
Definition negrow (o : nat) (M : zmat) : zmat := fun i j => if (i =? o)%nat then - M i j else M i j.
(** matrix_ops.cpp:279-321; [k] rounds are left. *)
Fixpoint diag_in (fuel : nat) (xg : Z -> Z -> Z * Z * Z) (n k : nat) (A L R : zmat) : outcome (zmat * zmat * zmat) :=
  match k with
  | O => Ok (A, L, R)
  | S k' =>
      let o := (n - 1 - k)%nat in
      bind (sweep fuel xg n o A L R) (fun '(A1, L1, R1) =>
      let neg := A1 o o <? 0 in
      let A2 := tab n (if neg then negrow o A1 else A1) in
      let L2 := tab n (if neg then negrow o L1 else L1) in
      let q := fun j => if A2 o o =? 0 then 0 else A2 o j / A2 o o in
      diag_in fuel xg n k' (tab n (subcols o q A2)) L2 (tab n (subcols o q R1)))
  end.
Definition diagonalize (fuel : nat) (xg : Z -> Z -> Z * Z * Z) (n : nat) (A : zmat) : outcome (zmat * zmat * zmat) :=
  if (n =? 0)%nat then Err OutOfBounds
  else bind (diag_in fuel xg n (n - 1) A delta delta) (fun '(A1, L1, R1) =>
       if A1 (n - 1)%nat (n - 1)%nat <? 0 then Ok (tab n (negrow (n - 1) A1), tab n (negrow (n - 1) L1), R1) else Ok (A1, L1, R1)).
(** Overwrite one entry. *)
Definition set_ent (A : zmat) (i j : nat) (v : Z) : zmat := fun a b => if ((a =? i) && (b =? j))%nat then v else A a b.
(** matrix_ops.cpp:336-394, one pair (i, j); the boolean is the break. *)
Definition pair_step (xg : Z -> Z -> Z * Z * Z) (n i j : nat) (st : zmat * zmat * zmat) : (zmat * zmat * zmat) * bool :=
  let '(A, L, R) := st in
  if A i i =? 1 then (st, true)
  else if A j j =? 0 then (st, false)
  else if A i i =? 0 then
    ((tab n (set_ent (set_ent A i i (A j j)) j j (A i i)), tab n (row2 i j 0 1 1 0 L), tab n (col2 i j 0 1 1 0 R)), false)
  else
    let '(g, y, x) := xg (A j j) (A i i) in
    (* R_j += x R_i; exchange; R_j -= (a_i / g) R_i *)
    let R1 := tab n (col2 i j 1 0 x 1 R) in
    let R2 := tab n (col2 i j 0 1 1 0 R1) in
    let R3 := tab n (col2 i j 1 0 (- (A i i / g)) 1 R2) in
    (* L_i += y L_j; L_j = - L_j; L_j += (a_j / g) L_i *)
    let L1 := tab n (row2 i j 1 y 0 1 L) in
    let L2 := tab n (row2 i j 1 0 0 (-1) L1) in
    let L3 := tab n (row2 i j 1 0 (A j j / g) 1 L2) in
    ((tab n (set_ent (set_ent A j j (A j j / g * A i i)) i i g), L3, R3), false).
Fixpoint pair_row (xg : Z -> Z -> Z * Z * Z) (n i : nat) (js : list nat) (st : zmat * zmat * zmat) : zmat * zmat * zmat :=
  match js with
  | [] => st
  | j :: js' => let '(st', stop) := pair_step xg n i j st in if stop then st' else pair_row xg n i js' st'
  end.
Definition pairs (xg : Z -> Z -> Z * Z * Z) (n : nat) (st : zmat * zmat * zmat) : zmat * zmat * zmat :=
  fold_left (fun st i => pair_row xg n i (seq (i + 1) (n - i - 1)) st) (seq 0 n) st.
(** matrix_ops.cpp:323-398: (S, L, R) *)
Definition smith (fuel : nat) (xg : Z -> Z -> Z * Z * Z) (n : nat) (A : zmat) : outcome (zmat * zmat * zmat) :=
  bind (diagonalize fuel xg n A) (fun st => Ok (pairs xg n st)).
