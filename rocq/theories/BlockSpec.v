(** The block representation as a list of terms: a known exponent vector gets the
    coefficient added, a new one is appended. *)
From Verif Require Import Common TrieSpec.
Open Scope Z_scope.
Fixpoint add_term {T} (add : T -> T -> T) (l : list (T * list Z)) (c : T) (x : list Z) : list (T * list Z) :=
  match l with
  | [] => [(c, x)]
  | (c0, x0) :: l' => if same_exps x0 x then (add c0 c, x0) :: l' else (c0, x0) :: add_term add l' c x
  end.
Definition add_terms {T} (add : T -> T -> T) (l : list (T * list Z)) : list (T * list Z) :=
  fold_left (fun acc p => add_term add acc (fst p) (snd p)) l [].

(** The products of one term with all terms of a list that lie in the box. *)
Fixpoint row_products {T} (mul : T -> T -> T) (a : T * list Z) (l2 : list (T * list Z)) (mn mx : list Z) : list (T * list Z) :=
  match l2 with
  | [] => []
  | b :: l2' => (if in_box mn mx (vadd (snd a) (snd b)) then [(mul (fst a) (fst b), vadd (snd a) (snd b))] else []) ++ row_products mul a l2' mn mx
  end.
