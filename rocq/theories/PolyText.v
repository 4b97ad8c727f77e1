(** Reading and printing polynomials, sums of powers of linear forms and sums of
    products of powers of linear forms (code/latte/integration/PolyTrie.cpp:10-445 and
    code/latte/integration/consumers.h:39-98).

    A position [i] in the text [line] is modelled by the suffix that starts there.  At
    the empty suffix line[i] is NUL (C++ allows that read); every scanning loop then
    moves on and reads outside the string, hence the outcome [OutOfBounds]. *)
From Verif Require Import Common Rational Trie Text.
Open Scope Z_scope.

Definition ob : ascii := "["%char.
Definition cb : ascii := "]"%char.
Definition comma : ascii := ","%char.
Definition blank : ascii := " "%char.

(** "for (; line[i] != c; i++);" : the characters passed over and the suffix at the stop. *)
Definition scan (p : ascii -> bool) (s : text) : outcome (text * text) :=
  match split_at p s with Some r => Ok r | None => Err OutOfBounds end.

(** PolyTrie.cpp:22-26 (also 174-177, 347-350): the commas before the first ']'. *)
Fixpoint count_commas (s : text) : outcome Z :=
  match s with
  | [] => Err OutOfBounds
  | c :: s' => if is_char cb c then Ok 0
               else bind (count_commas s') (fun k => Ok (if is_char comma c then k + 1 else k))
  end.

(** PolyTrie.cpp:57-67 (217-229, 396-408): the loop over a vector, entered after the
    opening bracket.  [word] is the entry being scanned by the inner loop.  The inner
    loop stops at ',' or ']', the outer loop's i++ then skips that character too, so
    the loop ends at a second ']'.  [arr] is an array of [length arr] entries, not
    initialised in the beginning ([None]). *)
Definition store_entry (conv : text -> outcome Z) (w : text) (arr : list (option Z)) (k : nat) : outcome (list (option Z)) :=
  bind (conv w) (fun z => if (k <? length arr)%nat then Ok (upd arr k (Some z)) else Err OutOfBounds).
Fixpoint read_vec (conv : text -> outcome Z) (s : text) (word : option text) (arr : list (option Z)) (k : nat)
  : outcome (list (option Z) * text) :=
  match s with
  | [] => Err OutOfBounds
  | c :: s' =>
      match word with
      | None =>
          if is_char cb c then Ok (arr, s)
          else if is_char blank c then read_vec conv s' None arr k
          else if is_char comma c then bind (store_entry conv [] arr k) (fun arr' => read_vec conv s' None arr' (S k))
          else read_vec conv s' (Some [c]) arr k
      | Some w =>
          if is_char comma c || is_char cb c
          then bind (store_entry conv w arr k) (fun arr' => read_vec conv s' None arr' (S k))
          else read_vec conv s' (Some (w ++ [c])%list) arr k
      end
  end.
(** Reading an array whose entries were all written. *)
Fixpoint initialised (arr : list (option Z)) : outcome (list Z) :=
  match arr with
  | [] => Ok []
  | Some z :: arr' => bind (initialised arr') (fun l => Ok (z :: l))
  | None :: _ => Err OutOfBounds
  end.
(** vec_ZZ entries start as 0. *)
Definition zeros (n : nat) : list (option Z) := repeat (Some 0) n.

(** PolyTrie.cpp:41-75: the loop of parseMonomials.  [flag]: false, a coefficient is
    expected (0); true, an exponent vector (1).  The text between the bracket and the
    comma is the coefficient. *)
Fixpoint parse_monomials (fuel : nat) (s : text) (flag : bool) (c : rat) (arr : list (option Z)) (m : msum rat) : outcome (msum rat) :=
  match fuel with
  | O => Err OutOfFuel
  | S f =>
      match s with
      | [] | [_] => Ok m
      | ch :: s' =>
          if is_char ob ch then
            if flag then
              bind (read_vec atoi s' None arr 0) (fun p => let '(arr', rest) := p in
              bind (initialised arr') (fun x =>
              bind (insert_monomial rat_add rat_zero m c x) (fun m' => parse_monomials f (tl rest) false c arr' m')))
            else
              bind (scan (is_char comma) s) (fun p => let '(pre, rest) := p in
              bind (rat_of_text (tl pre)) (fun c' => parse_monomials f (tl rest) true c' arr m))
          else parse_monomials f s' flag c arr m
      end
  end.
(** PolyTrie.cpp:10-78 loadMonomials into the object [m] (its termCount is reset, its
    varCount is set by setDimension unless parsing gives up). *)
Definition load_monomials (m : msum rat) (line : text) : outcome (msum rat) :=
  let m0 := mkSum 0 (ms_vars m) (ms_trie m) in
  bind (count_commas line) (fun k =>
  if k <? 1 then Ok m0
  else parse_monomials (length line) (tl line) false rat_default (repeat None (Z.to_nat k))
         (mkSum 0 (Z.to_nat k) (ms_trie m))).

(** Entries separated by ", " (the loops at PolyTrie.cpp:122-139, 294-305). *)
Fixpoint sep_by (l : list text) : text :=
  match l with
  | [] => []
  | [t] => t
  | t :: l' => (t ++ comma :: blank :: sep_by l')%list
  end.
Definition show_vec (x : list Z) : text := (ob :: sep_by (map show_Z x) ++ [cb])%list.
Definition show_monomial (t : bterm rat) : text :=
  (ob :: show_rat (t_coef t) ++ comma :: blank :: show_vec (t_exps t) ++ [cb])%list.
(** PolyTrie.cpp:112-144 printMonomials: the do-while loop dereferences the first term,
    NULL if there is none. *)
Definition print_monomials (m : msum rat) : outcome text :=
  bind (sum_terms rat_zero m) (fun out =>
  match out with
  | [] => Err NullDeref
  | _ => Ok (ob :: sep_by (map show_monomial out) ++ [cb])%list
  end).

(** ** Sums of powers of linear forms *)
Fixpoint int_factorial (n : nat) : Z := match n with O => 1 | S n' => int_factorial n' * Z.of_nat n end.
(** PolyTrie.cpp:193-245: the loop of parseLinForms; [flag] 0: coefficient, 1: degree,
    2: coefficient vector.  The coefficient is multiplied by the factorial of the
    degree (lines 230-236; no iteration for a negative degree). *)
Fixpoint parse_forms (fuel : nat) (s : text) (flag : nat) (c : rat) (d : Z) (arr : list (option Z)) (m : msum rat) : outcome (msum rat) :=
  match fuel with
  | O => Err OutOfFuel
  | S f =>
      match s with
      | [] | [_] => Ok m
      | ch :: s' =>
          if is_char ob ch then
            match flag with
            | O =>
                bind (scan (is_char comma) s) (fun p => let '(pre, rest) := p in
                bind (rat_of_text (tl pre)) (fun c' => parse_forms f (tl rest) 1 c' d arr m))
            | S O =>
                bind (scan (is_char comma) s) (fun p => let '(pre, rest) := p in
                bind (atoi (tl pre)) (fun d' => parse_forms f (tl rest) 2 c d' arr m))
            | _ =>
                bind (read_vec to_ZZ s' None arr 0) (fun p => let '(arr', rest) := p in
                bind (initialised arr') (fun x =>
                let c' := rat_mul_fun c (mkRat (int_factorial (Z.to_nat d)) 1) in
                bind (insert_form rat_add rat_zero m c' d x) (fun m' => parse_forms f (tl rest) 0 c' d arr' m')))
            end
          else parse_forms f s' flag c d arr m
      end
  end.
(** PolyTrie.cpp:152-246 loadLinForms *)
Definition load_forms (m : msum rat) (line : text) : outcome (msum rat) :=
  let m0 := mkSum 0 (ms_vars m) (ms_trie m) in
  bind (count_commas line) (fun k0 => let k := k0 - 1 in
  if k <? 1 then Ok m0
  else parse_forms (length line) (tl line) 0 rat_default 0 (zeros (Z.to_nat k))
         (mkSum 0 (Z.to_nat k) (ms_trie m))).
Definition show_form (t : bterm rat) : text :=
  (ob :: show_rat (t_coef t) ++ comma :: blank :: ob :: show_Z (t_deg t) ++ comma :: blank :: show_vec (t_exps t) ++ [cb; cb])%list.
(** PolyTrie.cpp:281-313 printLinForms *)
Definition print_forms (m : msum rat) : outcome text :=
  bind (sum_terms rat_zero m) (fun out =>
  match out with
  | [] => Err NullDeref
  | _ => Ok (ob :: sep_by (map show_form out) ++ [cb])%list
  end).

(** ** Sums of products of powers of linear forms *)
(** consumers.h:71-77 ConsumeLinForm: the coefficient times the factorial of the degree,
    inserted into the sum that stands for the product with the given index.  (The code
    multiplies by 2, ..., degree one after the other, here once by the product.) *)
Definition consume_form (ps : list (msum rat)) (i : nat) (c : rat) (d : Z) (x : list Z) : outcome (list (msum rat)) :=
  match nth_error ps i with
  | None => Err OutOfBounds
  | Some m =>
      bind (insert_form rat_add rat_zero m (rat_mul_fun c (mkRat (int_factorial (Z.to_nat d)) 1)) d x) (fun m' => Ok (upd ps i m'))
  end.
(** PolyTrie.cpp:417-433: after a factor, ++i until ',' (another factor) or ']' (the
    product is complete).  The suffix at that character. *)
Definition after_factor (s : text) : outcome (bool * text) :=
  bind (scan (fun c => is_char comma c || is_char cb c) (tl s)) (fun p =>
  match snd p with
  | c :: _ => Ok (is_char comma c, snd p)
  | [] => Err OutOfBounds
  end).
(** PolyTrie.cpp:366-440: the loop of parseLinFormProducts; [flag] 0: coefficient,
    1: start of a product, 2: degree, 3: coefficient vector.  consumers.h:80-88
    initializeNewProduct appends an empty sum. *)
Fixpoint parse_products (fuel : nat) (s : text) (flag : nat) (c : rat) (d : Z) (vars : nat) (arr : list (option Z)) (ps : list (msum rat))
  : outcome (list (msum rat)) :=
  match fuel with
  | O => Err OutOfFuel
  | S f =>
      match s with
      | [] | [_] => Ok ps
      | ch :: s' =>
          if is_char ob ch then
            match flag with
            | O =>
                bind (scan (is_char comma) s) (fun p => let '(pre, rest) := p in
                bind (rat_of_text (tl pre)) (fun c' => parse_products f (tl rest) 1 c' d vars arr ps))
            | S O => parse_products f s' 2 c d vars arr (ps ++ [new_sum vars])
            | S (S O) =>
                bind (scan (is_char comma) s) (fun p => let '(pre, rest) := p in
                bind (atoi (tl pre)) (fun d' => parse_products f (tl rest) 3 c d' vars arr ps))
            | _ =>
                bind (read_vec to_ZZ s' None arr 0) (fun p => let '(arr', rest) := p in
                bind (initialised arr') (fun x =>
                bind (consume_form ps (length ps - 1) c d x) (fun ps' =>
                bind (after_factor rest) (fun q =>
                parse_products f (tl (snd q)) (if fst q then 2 else 0)%nat (mkRat 1 1) d vars arr' ps'))))
            end
          else parse_products f s' flag c d vars arr ps
      end
  end.
(** PolyTrie.cpp:325-441 loadLinFormProducts into an object holding the products [ps];
    with fewer than one variable the program ends (lines 353-358). *)
Definition load_products (ps : list (msum rat)) (line : text) : outcome (nat * list (msum rat)) :=
  bind (count_commas line) (fun k0 => let k := k0 - 1 in
  if k <? 1 then Err Exited
  else bind (parse_products (length line) (tl line) 0 rat_default 0 (Z.to_nat k) (zeros (Z.to_nat k)) ps)
         (fun ps' => Ok (Z.to_nat k, ps'))).
