(** The objects, questions and answers of the valuation theorems. *)
From Coq Require Import QArith Qabs.
From Verif Require Import Common Rational RationalSpec RatVec RatVecSpec Trie TrieSpec TrieProofs2 Integ IntegSpec Det Valuation ValuationSpec.
Open Scope Z_scope.

(** A rational vector of dimension n: positive denominators, and a right cache if it has
    been computed (C05, C06: every vector built through the API is such). *)
Definition rational_point (n : nat) (v : rvec) : Prop :=
  length (enumerator v) = n /\ length (denominator v) = n /\ Forall (fun d => 0 < d) (denominator v) /\
  (computed v = true -> length (iscale v) = n /\ 0 < ifactor v /\
     (forall i, (i < n)%nat -> nth i (iscale v) 0 * den_at v i = ifactor v * num_at v i) /\
     (forall i, (i < n)%nat -> (den_at v i | ifactor v)) /\
     (forall t, (forall i, (i < n)%nat -> (den_at v i | t)) -> (ifactor v | t))).
Definition point (v : rvec) : list Q := map (coord v) (seq 0 (dim v)).
(** The object describes the polytope with the vertices [ps]: by one cone over it or by
    its tangent cones. *)
Definition describes (n : nat) (st : pval) (ps : list (list Q)) : Prop :=
  (exists c, st = from_one (S n) c /\ cone_over n ps (vc_rays c)) \/
  (exists cones, st = from_cones n cones /\ cones <> [] /\ Forall (fun c => rational_point n (vc_vertex c)) cones /\ ps = map (fun c => point (vc_vertex c)) cones).
(** The triangulation returns simplicial cones spanned by rays of its argument. *)
Definition simplex_cones (n : nat) (T : nat -> vcone -> list vcone) : Prop := forall c, exists idx, selected n (vc_rays c) (map vc_rays (T (S n) c)) idx.
(** The simplices with the indices [idx] are those of the triangulation of the cone [c]
    over a multiple of the polytope with the vertices [ps]. *)
Definition triangulated (n : nat) (T : nat -> vcone -> list vcone) (ps : list (list Q)) (c : vcone) (idx : list (list nat)) : Prop :=
  (exists k, 0 < k /\ cone_over n (map (qscale k) ps) (vc_rays c)) /\ selected n (vc_rays c) (map vc_rays (T (S n) c)) idx.
(** A linear form coef * <l,x>^deg/deg! in n variables; a polynomial of degree <= D. *)
Definition form_input (n : nat) (p : rat * Z * list Z) : Prop :=
  lowest_terms (fst (fst p)) /\ length (snd p) = n /\ 0 <= snd (fst p) /\ snd (fst p) + Z.of_nat n < 2 ^ 20 - 1.
Definition polynomial_input (n : nat) (D : Z) (l : list (rat * list Z)) : Prop :=
  0 <= D /\ D + Z.of_nat n < 2 ^ 20 - 1 /\
  Forall (fun p => lowest_terms (fst p) /\ length (snd p) = n /\ Forall (fun e => 0 <= e) (snd p) /\ degree (snd p) <= D) l /\ nonzero_monomials l <> [].
(** What is asked, the call that asks it, and the right answer. *)
Inductive question := AskVolume | AskForms (l : list (rat * Z * list Z)) | AskPolynomial (l : list (rat * list Z)).
Definition call_of (n : nat) (q : question) : outcome vcall :=
  match q with
  | AskVolume => Ok CallVolume
  | AskForms l => bind (insert_all rat_add rat_zero l (new_sum n)) (fun p => Ok (CallForms p))
  | AskPolynomial l => bind (insert_all rat_add rat_zero (as_input l) (new_sum n)) (fun p => Ok (CallPolynomial p))
  end.
Definition valid (n : nat) (D : Z) (q : question) : Prop :=
  match q with
  | AskVolume => True
  | AskForms l => Forall (form_input n) l /\ exists p, In p l /\ ~ (value (fst (fst p)) == 0)%Q
  | AskPolynomial l => polynomial_input n D l /\ NoDup (map snd (nonzero_monomials l))
  end.
Definition answer (n : nat) (D : Z) (sims : list (list (list Q))) (q : question) (v : rat) : Prop :=
  match q with
  | AskVolume => (value v == total_volume n sims)%Q
  | AskForms l => (value v == forms_integral n sims l)%Q
  | AskPolynomial l => forall J, integrates n sims D J -> (value v == J (poly_at (input_poly l)))%Q
  end.
Definition is_integral (q : question) : Prop := match q with AskVolume => False | _ => True end.

Fixpoint calls_of (n : nat) (qs : list question) : outcome (list vcall) :=
  match qs with [] => Ok [] | q :: qs' => bind (call_of n q) (fun c => bind (calls_of n qs') (fun cs => Ok (c :: cs))) end.
