(** Substituting 1 for all variables but the last. *)
From Coq Require Import QArith String Ascii.
From Verif Require Import Common ExpSpec GenFunSpec.
Open Scope Z_scope.

(** The last of the n coordinates. *)
Definition height (n : nat) (v : list Z) : Z := nth (n - 1) v 0.
(** The values (1, ..., 1, t). *)
Definition at_last (n : nat) (t : Q) (k : nat) : Q := if (k =? n - 1)%nat then t else 1%Q.
(** The text with the name x[0] for the variable t, to be read by the reader. *)
Definition named (s : chars) : chars := flat_map (fun c => if Ascii.eqb c "t" then list_ascii_of_string "x[0]" else [c]) s.
(** The cones after the substitution: vectors with one coordinate. *)
Definition projected (n : nat) (cones : list (Z * list (list Z) * list (list Z))) : list (Z * list (list Z) * list (list Z)) :=
  map (fun c => (fst (fst c), map (fun r => [height n r]) (snd (fst c)), map (fun p => [height n p]) (snd c))) cones.
(** level k is the list of the integer points of height k at which F is not 0. *)
Definition levels (n : nat) (F : list Z -> Z) (level : Z -> list (list Z)) : Prop :=
  forall k, NoDup (level k) /\ forall x, In x (level k) <-> length x = n /\ height n x = k /\ F x <> 0.
(** The sum of F over the level k. *)
Definition level_sum (F : list Z -> Z) (level : Z -> list (list Z)) (v : list Z) : Z := fold_right (fun x s => F x + s) 0 (level (nth 0 v 0)).
