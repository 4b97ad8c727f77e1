(** Sublists, gcds, Moebius sums and Bernoulli numbers. *)
From Coq Require Import QArith.
From Verif Require Import Common Rational RationalSpec IntegSpec Knapsack.
Open Scope Z_scope.

(** S is obtained from L by deleting entries. *)
Inductive sublist {A} : list A -> list A -> Prop :=
| sub_nil : sublist [] []
| sub_keep a S L : sublist S L -> sublist (a :: S) (a :: L)
| sub_drop a S L : sublist S L -> sublist S (a :: L).
(** Greatest common divisor of a list. *)
Definition gcd_list (l : list Z) : Z := fold_right Z.gcd 0 l.
(** g is the gcd of at least [size] entries of alpha. *)
Definition gcd_of_sublist (alpha : list Z) (size : nat) (g : Z) : Prop :=
  exists S, sublist S alpha /\ (size <= length S)%nat /\ S <> [] /\ gcd_list S = g.
(** The gcds stored. *)
Definition stored (l : list mpair) : list Z := map m_gcd l.
(** Sum of the Moebius values of the stored multiples of f. *)
Definition mu_sum (l : list mpair) (f : Z) : Z :=
  fold_right Z.add 0 (map m_mu (filter (fun p => m_gcd p mod f =? 0) l)).
(** A history of calls on a fresh list: insertGCD(v) and computeMobius(). *)
Inductive mop := MInsert (v : Z) | MCompute.
Fixpoint mrun (l : list mpair) (h : list mop) : outcome (list mpair) :=
  match h with
  | [] => Ok l
  | MInsert v :: h' => mrun (insert_gcd l v) h'
  | MCompute :: h' => bind (compute_mobius l) (fun l' => mrun l' h')
  end.
Definition inserted (h : list mop) (v : Z) : Prop := In (MInsert v) h.

(** Recurrence of the Bernoulli numbers (first kind): sum_{j<=m} C(m+1,j) B_j = [m=0]. *)
Fixpoint qseqsum (f : nat -> Q) (n : nat) : Q := match n with O => 0 | S n' => qseqsum f n' + f n' end.
Definition bernoulli_recurrence (B : nat -> Q) (m : nat) : Prop :=
  (qseqsum (fun j => inject_Z (binom (m + 1) j) * B j) (m + 1) == if (m =? 0)%nat then 1 else 0)%Q.
