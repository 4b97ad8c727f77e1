(** Property theorems about the top-knapsack helpers: periodic functions (C21), Moebius
    list (C22), gcds of sublists (C23), Bernoulli numbers (C24). *)
From Coq Require Import QArith.
From Verif Require Import Common Rational RationalSpec RatFun IntegSpec Periodic PeriodicSpec PeriodicProofs Knapsack KnapsackSpec KnapsackProofs KnapsackProofs3 KnapsackProofs4 BernoulliProofs.
Open Scope Z_scope.

(** C21.  Every client program over periodic functions denotes, pointwise, what the same
    program computes on functions of T. *)
Theorem periodic_arithmetic_exact : forall p q, pspec_run qfinit p = Some q ->
  exists s, prun pinit p = Ok s /\ forall i t, (pvalue (s i) t == q i t)%Q.
Proof. exact periodic_exact. Qed.
Print Assumptions periodic_arithmetic_exact.
(** f := {T/3} - 2;  g := f*f;  g := g + f;  f := f / 5;  f := f ^ 2. *)
Definition sample_prog : list pstmt :=
  [PFrac 0 1 3; PConst 1 2 1; PSub 0 1; PCopy 2 0; PMul 2 0; PAdd 2 0; PDivZ 0 5; PPow 0 2].
Example periodic_sample :
  match pspec_run qfinit sample_prog with Some q => Some (Qred (q 0%nat 5%Q), Qred (q 2%nat 5%Q)) | None => None end = Some (16 # 225, 4 # 9) /\
  match prun pinit sample_prog with Ok s => Some (Qred (pvalue (s 0%nat) 5), Qred (pvalue (s 2%nat) 5)) | _ => None end = Some (16 # 225, 4 # 9).
Proof. split; vm_compute; reflexivity. Qed.

(** operator==(int) never claims a false equality. *)
Theorem periodic_equality_sound : forall p q s i x, pspec_run qfinit p = Some q -> prun pinit p = Ok s ->
  pis (s i) x = true -> forall t, (q i t == inject_Z x)%Q.
Proof. exact periodic_equality. Qed.
Print Assumptions periodic_equality_sound.
Example periodic_equality_sample :
  match prun pinit [PConst 0 6 2; PConst 1 (-1) 3; PAdd 0 1; PScale 0 3 8] with Ok s => pis (s 0%nat) 1 | _ => false end = true /\
  match prun pinit [PFrac 0 6 2] with Ok s => pis (s 0%nat) 0 | _ => true end = false.
Proof. split; vm_compute; reflexivity. Qed.

(** The build without shared_ptr agrees on programs that assign variables before use. *)
Theorem periodic_fallback_exact_partial : forall p q, initialised [] p = true -> pspec_run qfinit p = Some q ->
  exists s, frun finit p = Ok s /\ forall i t, (fvalue (s i) t == q i t)%Q.
Proof. exact fallback_exact. Qed.
Print Assumptions periodic_fallback_exact_partial.
Example periodic_fallback_sample : initialised [] sample_prog = true /\
  match frun finit sample_prog with Ok s => Some (Qred (fvalue (s 0%nat) 5), Qred (fvalue (s 2%nat) 5)) | _ => None end = Some (16 # 225, 4 # 9).
Proof. split; vm_compute; reflexivity. Qed.
(** ... and not otherwise: 0 - 7 is 7, and 7 * 0 dereferences NULL. *)
Theorem periodic_fallback_refuted :
  (exists p q s, pspec_run qfinit p = Some q /\ frun finit p = Ok s /\ ~ (fvalue (s 0%nat) 0 == q 0%nat 0)%Q) /\
  (exists p q, pspec_run qfinit p = Some q /\ frun finit p = Err NullDeref).
Proof.
  split.
  - exists [PConst 1 7 1; PSub 0 1]. eexists. eexists. refine (conj eq_refl (conj eq_refl _)). vm_compute. discriminate.
  - exists [PConst 0 7 1; PMul 0 1]. eexists. refine (conj eq_refl eq_refl).
Qed.
Print Assumptions periodic_fallback_refuted.

(** C22.  After any history of insertions of positive gcds and computations: the stored
    values are the inserted ones without repetition; computing gives every stored f the
    sum 1 over its stored multiples, and throws exactly when 1 is missing. *)
Theorem moebius_inclusion_exclusion : forall h l,
  Forall (fun o => match o with MInsert v => 0 < v | MCompute => True end) h -> mrun [] h = Ok l ->
  NoDup (stored l) /\ (forall v, In v (stored l) <-> inserted h v) /\
  (inserted h 1 -> exists l', compute_mobius l = Ok l' /\ stored l' = stored l /\ forall f, In f (stored l) -> mu_sum l' f = 1) /\
  (~ inserted h 1 -> compute_mobius l = Err Thrown).
Proof. exact mobius_history. Qed.
Print Assumptions moebius_inclusion_exclusion.
Definition sample_history : list mop := [MInsert 6; MInsert 1; MInsert 4; MCompute; MInsert 2; MInsert 6; MInsert 3].
Example moebius_sample :
  match mrun [] sample_history with Ok l => match compute_mobius l with Ok l' => Some (map (fun p => (m_gcd p, m_mu p)) l') | _ => None end | _ => None end
  = Some [(6, 1); (1, 0); (4, 1); (2, -1); (3, 0)].
Proof. vm_compute. reflexivity. Qed.
Example moebius_missing_sample : match mrun [] [MInsert 6; MInsert 4] with Ok l => compute_mobius l | _ => Ok [] end = Err Thrown.
Proof. vm_compute. reflexivity. Qed.

(** C23.  The pairwise-closure method finds exactly the gcds of the sublists with at least
    N+1-k entries. *)
Theorem gcds_from_entire_list : forall alpha k, Forall (fun x => 0 < x) alpha -> (k < length alpha)%nat ->
  exists l, find_gcds false alpha k = Ok l /\ NoDup (stored l) /\ forall g, In g (stored l) <-> gcd_of_sublist alpha (length alpha - k) g.
Proof. exact entire_ok. Qed.
Print Assumptions gcds_from_entire_list.
(** The subset method does when the whole list has gcd 1 (its documented assumption). *)
Theorem gcds_from_subsets : forall alpha k, Forall (fun x => 0 < x) alpha -> gcd_list alpha = 1 -> (k < length alpha)%nat ->
  exists l, find_gcds true alpha k = Ok l /\ NoDup (stored l) /\ forall g, In g (stored l) <-> gcd_of_sublist alpha (length alpha - k) g.
Proof. exact by_subsets_ok. Qed.
Print Assumptions gcds_from_subsets.
Example gcds_sample :
  (match find_gcds true [12; 18; 8; 5] 2 with Ok l => Some (stored l) | _ => None end,
   match find_gcds false [12; 18; 8; 5] 2 with Ok l => Some (stored l) | _ => None end) = (Some [1; 2; 6; 4], Some [1; 2; 4; 6]) /\
  gcd_list [12; 18; 8; 5] = 1.
Proof. split; vm_compute; reflexivity. Qed.
(** When the list has a common factor the subset method stores the value 1, which is not
    a gcd of any sublist, so that the later check for a common factor passes; the other
    method reports it. *)
Theorem common_factor_unreported_refuted : exists alpha k l l',
  Forall (fun x => 0 < x) alpha /\ gcd_list alpha = 2 /\
  find_gcds true alpha k = Ok l /\ In 1 (stored l) /\ (exists m, compute_mobius l = Ok m) /\
  find_gcds false alpha k = Ok l' /\ compute_mobius l' = Err Thrown.
Proof.
  exists [2; 4; 6], 1%nat. eexists. eexists. split; [repeat constructor|].
  split; [vm_compute; reflexivity|]. split; [vm_compute; reflexivity|]. split; [left; reflexivity|]. split; [eexists; vm_compute; reflexivity|]. split; vm_compute; reflexivity.
Qed.
Print Assumptions common_factor_unreported_refuted.

(** C24.  The table has k+1 fractions in lowest terms satisfying the defining recurrence. *)
Theorem bernoulli_table : forall k, exists B, set_bernoulli k = Ok B /\ length B = (k + 1)%nat /\ Forall lowest_terms B /\
  forall m, (m <= k)%nat -> bernoulli_recurrence (fun j => value (nth j B rat_default)) m.
Proof. exact bernoulli_ok. Qed.
Print Assumptions bernoulli_table.
Example bernoulli_sample :
  set_bernoulli 8 = Ok [mkRat 1 1; mkRat (-1) 2; mkRat 1 6; mkRat 0 1; mkRat (-1) 30; mkRat 0 1; mkRat 1 42; mkRat 0 1; mkRat (-1) 30].
Proof. vm_compute. reflexivity. Qed.
