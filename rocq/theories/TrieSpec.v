(** A polynomial (or sum of powers of linear forms) as a finite map: what the sequence
    of insertions means. *)
From Coq Require Import QArith Sorting.Sorted.
From Verif Require Import Common Rational RationalSpec.
Open Scope Z_scope.

(** Equality of exponent vectors, as a test. *)
Fixpoint same_exps (a b : list Z) : bool :=
  match a, b with
  | [], [] => true
  | x :: a', y :: b' => (x =? y) && same_exps a' b'
  | _, _ => false
  end.

(** The coefficients inserted for degree [d] and exponents [x], combined in the
    order of insertion; [None] if there was none. *)
Definition combined {T} (add : T -> T -> T) (l : list (T * Z * list Z)) (d : Z) (x : list Z) : option T :=
  fold_left (fun o p =>
    if (snd (fst p) =? d) && same_exps (snd p) x then
      match o with None => Some (fst (fst p)) | Some y => Some (add y (fst (fst p))) end
    else o) l None.

(** The mathematical coefficient: the sum over Q. *)
Fixpoint coefficient (l : list (rat * Z * list Z)) (d : Z) (x : list Z) : Q :=
  match l with
  | [] => 0%Q
  | p :: l' => ((if (snd (fst p) =? d) && same_exps (snd p) x then value (fst (fst p)) else 0) + coefficient l' d x)%Q
  end.

(** Lexicographic order on exponent vectors. *)
Fixpoint lex_lt (a b : list Z) : Prop :=
  match a, b with
  | x :: a', y :: b' => x < y \/ (x = y /\ lex_lt a' b')
  | _, _ => False
  end.

(** ** Polynomials as formal sums; equality is equality of all coefficients. *)
Definition poly := list (Q * list Z).
Fixpoint coef (p : poly) (x : list Z) : Q :=
  match p with
  | [] => 0%Q
  | a :: p' => ((if same_exps (snd a) x then fst a else 0) + coef p' x)%Q
  end.
Fixpoint vadd (a b : list Z) : list Z :=
  match a, b with x :: a', y :: b' => x + y :: vadd a' b' | _, _ => [] end.
Definition padd (p q : poly) : poly := p ++ q.
Definition pmul (p q : poly) : poly :=
  flat_map (fun a => map (fun b => ((fst a * fst b)%Q, vadd (snd a) (snd b))) q) p.
Fixpoint in_box (mn mx x : list Z) : bool :=
  match mn, mx, x with
  | l :: mn', h :: mx', v :: x' => (l <=? v) && (v <=? h) && in_box mn' mx' x'
  | _, _, _ => true
  end.
(** Terms whose every exponent lies in the box. *)
Definition truncate (mn mx : list Z) (p : poly) : poly := filter (fun a => in_box mn mx (snd a)) p.

From Verif Require Import Trie.
(** The polynomial spelled out by a list of terms. *)
Definition terms_poly (l : list (bterm rat)) : poly := map (fun t => (value (t_coef t), t_exps t)) l.
(** The meaning of a client program: each variable holds a polynomial. *)
Definition pstore := nat -> poly.
Definition pset (s : pstore) i p : pstore := fun k => if Nat.eqb k i then p else s k.
Definition pstep (s : pstore) (o : gop) : pstore :=
  match o with
  | GInsert i c x => pset s i (padd (s i) [(value c, x)])
  | GAdd i j => pset s i (padd (s i) (s j))
  | GMul i j mn mx => pset s i (truncate mn mx (pmul (s i) (s j)))
  end.
Fixpoint prun (s : pstore) (p : list gop) : pstore :=
  match p with [] => s | o :: p' => prun (pstep s o) p' end.
(** Well-formed client statements for [n] variables. *)
Definition legal (n : nat) (o : gop) : Prop :=
  match o with
  | GInsert _ c x => lowest_terms c /\ length x = n
  | GAdd i j => i <> j
  | GMul _ _ mn mx => length mn = n /\ length mx = n
  end.
