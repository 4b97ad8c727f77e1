(** What texts and stored objects stand for. *)
From Coq Require Import QArith Factorial.
From Verif Require Import Common Rational RationalSpec Trie Text PolyText.
Open Scope Z_scope.

(** A point and the value of a linear form at it. *)
Fixpoint form_at (l : list Z) (p : list Q) : Q :=
  match l, p with
  | a :: l', x :: p' => (inject_Z a * x + form_at l' p')%Q
  | _, _ => 0%Q
  end.
(** A product a * l_1^d_1 * ... * l_k^d_k of powers of linear forms. *)
Notation factor := (Z * list Z)%type.
Notation lf_product := (rat * list (Z * list Z))%type.
Definition factor_at (p : list Q) (f : factor) : Q := (form_at (snd f) p ^ fst f)%Q.
Definition product_at (p : list Q) (a : lf_product) : Q :=
  (value (fst a) * fold_right (fun f q => factor_at p f * q) 1 (snd a))%Q.

(** The documented input format (PolyTrie.cpp:335-337):
    [[a, [[d1, [l11, ...]], [d2, [l21, ...]], ...]], ...]. *)
Definition show_factor (f : factor) : text := (ob :: show_Z (fst f) ++ comma :: blank :: show_vec (snd f) ++ [cb])%list.
Definition show_product (a : lf_product) : text :=
  (ob :: show_rat (fst a) ++ comma :: blank :: ob :: sep_by (map show_factor (snd a)) ++ [cb; cb])%list.
Definition show_products (l : list lf_product) : text := (ob :: sep_by (map show_product l) ++ [cb])%list.

(** Linear forms are stored with coefficients to be divided by the factorial of the
    degree (PolyTrie.cpp:159-161, 235): the value of a stored product is the product,
    and of a stored sum the sum, of coefficient/degree! * form^degree. *)
Definition term_at (p : list Q) (t : bterm rat) : Q :=
  (value (t_coef t) / inject_Z (Z.of_nat (fact (Z.to_nat (t_deg t)))) * form_at (t_exps t) p ^ t_deg t)%Q.
Definition stored_product_at (p : list Q) (out : list (bterm rat)) : Q :=
  fold_right (fun t q => (term_at p t * q)%Q) 1%Q out.
Definition stored_sum_at (p : list Q) (out : list (bterm rat)) : Q :=
  fold_right (fun t q => (term_at p t + q)%Q) 0%Q out.

(** A well-formed product: [n] variables, lowest terms, at least one factor, degrees
    that are non-negative ints. *)
Definition wf_product (n : nat) (a : lf_product) : Prop :=
  lowest_terms (fst a) /\ snd a <> [] /\
  Forall (fun f => length (snd f) = n /\ 0 <= fst f <= 2147483647) (snd a).
