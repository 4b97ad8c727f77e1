(** Model of ihermite (code/latte/preprocess.cpp:77-182) and of its uses in
    code/latte/top-knapsack/TopKnapsack.cpp:465-590, 647-670.
    Simplification: the row-major vectors S (n rows of m entries) and U (n x n) are lists of
    rows; the C++ indices run from 1, the model's from 0.  Progress output is omitted. *)
From Verif Require Import Common.
Open Scope Z_scope.

Definition row := list Z.
Definition ent (S : list (list Z)) (i j : nat) : Z := nth j (nth i S []) 0.
(** preprocess.cpp:91-99 *)
Definition unit_row (n i : nat) : list Z := map (fun j => if (i =? j)%nat then 1 else 0) (seq 0 n).
Definition unit_mat (n : nat) : list (list Z) := map (unit_row n) (seq 0 n).
(** preprocess.cpp:103-116: row of the smallest non-zero absolute value in column c among
    rows c, ..., n-1; [l] are the rows from [i] on. *)
Fixpoint min_row (l : list (list Z)) (c i : nat) (mv : Z) (mc : nat) : nat :=
  match l with
  | [] => mc
  | r :: l' => let t := Z.abs (nth c r 0) in
               if (mv =? 0) || ((t <? mv) && negb (t =? 0)) then min_row l' c (S i) t i else min_row l' c (S i) mv mc
  end.
Definition pivot_row (S : list (list Z)) (c : nat) : nat := min_row (skipn (c + 1) S) c (c + 1) (Z.abs (ent S c c)) c.
(** Entries from column c on are taken from b. *)
Definition splice (c : nat) (a b : list Z) : list Z := firstn c a ++ skipn c b.
(** preprocess.cpp:125-134: exchange rows mc and c from column [c0] on, row c times sign. *)
Definition exchange (M : list (list Z)) (c0 c mc : nat) (sign : Z) : list (list Z) :=
  let rc := nth c M [] in let rm := nth mc M [] in
  upd (upd M mc (splice c0 rm rc)) c (splice c0 rc (map (Z.mul sign) rm)).
(** a - t * b *)
Fixpoint sub_row (a : list Z) (t : Z) (b : list Z) : list Z :=
  match a, b with x :: a', y :: b' => (x - t * y) :: sub_row a' t b' | _, _ => [] end.
(** preprocess.cpp:165-176: rows below c of S (from column c on) and of U. *)
Fixpoint reduce_S (l : list (list Z)) (i c : nat) (rc : list Z) : list (list Z) :=
  match l with
  | [] => []
  | r :: l' => (if (c <? i)%nat then splice c r (sub_row r (nth c r 0 / nth c rc 0) rc) else r) :: reduce_S l' (S i) c rc
  end.
Fixpoint reduce_U (l : list (list Z)) (s : list (list Z)) (i c : nat) (rc uc : list Z) : list (list Z) :=
  match l, s with
  | u :: l', r :: s' => (if (c <? i)%nat then sub_row u (nth c r 0 / nth c rc 0) uc else u) :: reduce_U l' s' (S i) c rc uc
  | _, _ => []
  end.
(** preprocess.cpp:174-175 *)
Definition cleared (S : list (list Z)) (c : nat) : bool := forallb (fun r => nth c r 0 =? 0) (skipn (c + 1) S).
(** preprocess.cpp:142-143: first column i >= c with a non-zero entry in rows >= c. *)
Fixpoint find_col (S : list (list Z)) (c i n : nat) : option nat :=
  match n with
  | O => None
  | S n' => if existsb (fun r => negb (nth i r 0 =? 0)) (skipn c S) then Some i else find_col S c (i + 1) n'
  end.
(** preprocess.cpp:146-155 *)
Definition swap_entries (r : list Z) (i c : nat) : list Z := upd (upd r i (nth c r 0)) c (nth i r 0).

Record hstate := mkH { h_S : list (list Z); h_U : list (list Z); h_rhs : list Z; h_c : nat; h_crk : nat }.
(** One round of the while loop (preprocess.cpp:101-179): a new state, or the end. *)
Definition hround (m : nat) (st : hstate) : hstate * bool :=
  let c := h_c st in
  let mc := pivot_row (h_S st) c in
  let v := ent (h_S st) mc c in
  let sign := if v <? 0 then -1 else 1 in
  let go := negb (mc =? c)%nat || (v <? 0) in
  let S1 := if go then exchange (h_S st) c c mc sign else h_S st in
  let U1 := if go then exchange (h_U st) 0 c mc sign else h_U st in
  if ent S1 c c =? 0 then
    match find_col S1 c c (m - c) with
    | Some i => (mkH (map (fun r => swap_entries r i c) S1) U1 (swap_entries (h_rhs st) i c) c (h_crk st), true)
    | None => (mkH S1 U1 (h_rhs st) c (h_crk st), false)
    end
  else
    let S2 := reduce_S S1 0 c (nth c S1 []) in
    let U2 := reduce_U U1 S1 0 c (nth c S1 []) (nth c U1 []) in
    (mkH S2 U2 (h_rhs st) (if cleared S2 c then c + 1 else c) (c + 1), true).
Fixpoint hloop (fuel : nat) (m n : nat) (st : hstate) : outcome hstate :=
  if (h_c st <? Nat.min m n)%nat then
    match fuel with
    | O => Err OutOfFuel
    | S f => let '(st', more) := hround m st in if more then hloop f m n st' else Ok st'
    end
  else Ok st.
(** preprocess.cpp:77-182: rank, S, U and rhs afterwards. *)
Definition ihermite (fuel : nat) (S : list (list Z)) (rhs : list Z) (m n : nat) : outcome (nat * list (list Z) * list (list Z) * list Z) :=
  bind (hloop fuel m n (mkH S (unit_mat n) rhs 0 0)) (fun st => Ok (h_crk st, h_S st, h_U st, h_rhs st)).

(** TopKnapsack.cpp:465-590 findLatticeBasis: the matrix by columns (column j is row j of U,
    the first scaled by f / gcd(f, s[0])). *)
Definition find_lattice_basis (fuel : nat) (alpha : list Z) (f : Z) : outcome (list (list Z)) :=
  let n := length alpha in
  bind (ihermite fuel (map (fun a => [a]) alpha) (repeat 0 n) 1 n) (fun '(_, s, u, _) =>
  match u, s with
  | u0 :: us, s0 :: _ =>
      let newf := if Z.gcd f (nth 0 s0 0) =? 0 then 0 else f / Z.gcd f (nth 0 s0 0) in
      Ok (map (fun x => x * newf) u0 :: us)
  | _, _ => Err OutOfBounds
  end).
(** TopKnapsack.cpp:647-670 findVertex: the first row of U without its last entry. *)
Definition find_vertex (fuel : nat) (alpha : list Z) (f : Z) : outcome (list Z) :=
  let n := (length alpha + 1)%nat in
  bind (ihermite fuel (map (fun a => [a]) (alpha ++ [f])) (repeat 0 n) 1 n) (fun '(_, _, u, _) =>
  Ok (firstn (n - 1) (nth 0 u []))).

