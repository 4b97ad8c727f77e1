(** Model of preprocessProblem and checkListVector (code/latte/preprocess.cpp:185-605).
    Rows are (b | -A): row [b; a_1; ...; a_n] stands for b + a_1 x_1 + ... + a_n x_n.
    Simplifications: the cost vector, ProjU, the LLL-reduced generators and the messages are
    left out; NTL's inv(d, X, A) is det and adj (its exact specification); the result files
    and exit calls are the results [Count0], [Count1], [Unbounded]. *)
From Verif Require Import Common ZMat Det Hermite.
Open Scope Z_scope.

Inductive presult :=
| Count0 | Count1            (* exit(0) after reporting that many lattice points *)
| Unbounded                  (* exit(1), "not bounded" *)
| Reduced (particular : list Z) (basis : list (list Z)) (ineqs : list (list Z)).

(** preprocess.cpp:243-279: no inequalities, as many equations as variables.  A zero
    determinant leaves the inverse empty: NTL aborts in Inv * sol (or in x / 0). *)
Definition solve_point (eqs : list (list Z)) (n : nat) : outcome presult :=
  let A : zmat := fun i j => - ent eqs i (j + 1) in
  let d := det n A in
  if d =? 0 then Err DivByZero
  else let x := fun i => zsum n (fun k => adj n A i k * ent eqs k 0) in
       if zsum n x =? d * zsum n (fun i => x i / d) then Ok Count1 else Ok Count0.
(** preprocess.cpp:419-440: forward substitution; [H] is the matrix H of line 349. *)
Fixpoint forward (k i r : nat) (H : zmat) (rhs : list Z) : list Z :=
  match k with
  | O => []
  | S k' =>
      if H i i =? 0 then 0 :: forward k' (S i) r H rhs
      else let s := nth i rhs 0 / H i i in
           s :: forward k' (S i) r H (map (fun j => if (i <? j)%nat then nth j rhs 0 - s * H j i else nth j rhs 0) (seq 0 r))
  end.
(** preprocess.cpp:545-560: one inequality in the new variables; the row keeps one unused
    trailing entry. *)
Definition new_row (n : nat) (part : list Z) (basis : list (list Z)) (dil : Z) (a : list Z) : list Z :=
  (dil * (nth 0 a 0 + zsum n (fun k => nth (k + 1) a 0 * nth k part 0)))
  :: map (fun g => zsum n (fun k => nth (k + 1) a 0 * nth k g 0)) basis ++ [0].
(** preprocess.cpp:563-567: check_Tri == 0 (without the trailing entry, which is 0). *)
Definition trivial_row (b : list Z) : bool := zsum (length b - 2) (fun k => Z.abs (nth (k + 1) b 0)) =? 0.
(** preprocess.cpp:543-605; checkListVector (185-210) finds no trivial row any more and
    treats an empty list like lines 595-601. *)
Definition reduce_ineqs (n : nat) (part : list Z) (basis : list (list Z)) (dil : Z) (ineqs : list (list Z)) : presult :=
  let rows := map (new_row n part basis dil) ineqs in
  if existsb (fun b => trivial_row b && (nth 0 b 0 <? 0)) rows then Count0
  else match filter (fun b => negb (trivial_row b)) rows with
       | [] => Count0
       | rows' => Reduced part basis rows'
       end.
Definition preprocess (fuel : nat) (eqs ineqs : list (list Z)) (n : nat) (dil : Z) : outcome presult :=
  match ineqs with
  | [] => if (length eqs =? n)%nat then solve_point eqs n else Ok Unbounded
  | _ =>
      let r := length eqs in
      (* lines 286-311: transpose of the negated equations *)
      let S := map (fun k => map (fun e => - nth (k + 1) e 0) eqs) (seq 0 n) in
      let rhs := map (fun e => nth 0 e 0) eqs in
      bind (ihermite fuel S rhs r n) (fun '(rank, S', U, rhs') =>
      let basis := skipn rank U in
      (* lines 380-384 read HH[i][j] for j < numOfRows *)
      if (n <? r)%nat then Err OutOfBounds
      else
        let H : zmat := fun i j => ent S' j i in
        let DD := det r H in
        let sol2 := map (fun i => if (i <? r)%nat then zsum r (fun k => adj r H i k * nth k rhs' 0) else 0) (seq 0 n) in
        let sol := forward r 0 r H rhs' ++ repeat 0 (n - r) in
        if negb (DD =? 0) && negb (forallb (fun i => nth i sol2 0 - nth i sol 0 * DD =? 0) (seq 0 n)) then Ok Count0
        else
          let part := map (fun i => zsum n (fun j => ent U j i * nth j sol 0)) (seq 0 n) in
          Ok (reduce_ineqs n part basis dil ineqs))
  end.
