(** The total choice function satisfies the contracts used for decompositions. *)
From Verif Require Import Common ZMat Hermite HermiteProofs Det DetProofs Piped PipedSpec PipedProofs PipedProofs4 Irrational IrrationalProofs BarvinokSpec BarvinokProofs2 BarvinokProofs3 BarvinokProofs4 Omega OmegaSpec OmegaProofs OmegaProofs2 OmegaProofs4 OmegaProofs5.
Open Scope Z_scope.

Lemma dual_unique n rays M1 M2 : (0 < n)%nat -> lin_indep n rays -> dual_matrix n rays M1 -> dual_matrix n rays M2 -> M1 = M2.
Proof.
  intros Hn LI D1 D2. pose proof (proj1 D1) as [L1 F1]. pose proof (proj1 D2) as [L2 F2]. rewrite Forall_forall in F1, F2.
  apply nth_ext with (d := []) (d' := []); [congruence|]. intros i Hi. rewrite L1 in Hi. assert (A : length (nth i M1 []) = n) by (apply F1, nth_In; lia). assert (B : length (nth i M2 []) = n) by (apply F2, nth_In; lia).
  apply nth_ext with (d := 0) (d' := 0); [congruence|]. intros j Hj. rewrite A in Hj. pose proof (LL_adj n Hn rays M1 LI D1 j i Hj Hi) as X. pose proof (LL_adj n Hn rays M2 LI D2 j i Hj Hi) as Y. rewrite neg_transpose_ent in X, Y by auto. change (ent M1 i j) with (nth j (nth i M1 []) 0) in X. change (ent M2 i j) with (nth j (nth i M2 []) 0) in Y. lia.
Qed.
Section Total.
Context (n : nat) (Hn : (0 < n)%nat) (rays : list (list Z)) (NV : n_vectors n rays) (LI : lin_indep n rays).
Context (lll : list (list Z) -> list (list Z) * list (list Z)) (solve : list (list Z) -> list Z -> option (list Z)).
Lemma dual_exists : exists c Dual, det_and_facets n rays = Ok c /\ cone_full n c /\ s_rays c = rays /\ facet_matrix c = Ok Dual /\ dual_matrix n rays Dual.
Proof.
  destruct (det_and_facets_full n rays NV (indep_det n rays LI)) as (c & E & FC & ER). destruct (facet_matrix_dual n c (proj1 FC)) as (M & EM & DM). rewrite ER in DM. exists c, M. auto.
Qed.
Lemma short_vector_eq Dual l : dual_matrix n rays Dual -> short_vector lll solve l rays = match compute_omega lll solve Dual n l l with Ok z => z | Err _ => match compute_omega lll solve Dual n 0 0 with Ok z => z | Err _ => [] end end.
Proof.
  intros DM. destruct dual_exists as (c & M & E & _ & _ & EM & DM'). rewrite (dual_unique n rays M Dual Hn LI DM' DM) in EM. unfold short_vector. rewrite (proj1 NV), E. cbn [bind]. rewrite EM. cbn [bind]. reflexivity.
Qed.
End Total.
Lemma primitive_nonzero n z : primitive n z -> exists k, (k < n)%nat /\ nth k z 0 <> 0.
Proof. intros H. destruct (some_nonzero n (fun k => nth k z 0)) as [X|X]; [exact X|exfalso]. destruct (H 2) as (t & E); [|lia]. intros k Hk. rewrite X by auto. exists 0. reflexivity. Qed.
Lemma short_vector_good n rays lll solve l : (0 < n)%nat -> n_vectors n rays -> lin_indep n rays -> lll_contract lll -> solve_contract solve ->
  length (short_vector lll solve l rays) = n /\ primitive n (short_vector lll solve l rays).
Proof.
  intros Hn NV LI LC SC. destruct (dual_exists n rays NV LI) as (c & Dual & _ & _ & _ & _ & DM). rewrite (short_vector_eq n Hn rays NV LI lll solve Dual l DM).
  assert (LC' : new_basis n (neg_transpose n Dual) (lll (neg_transpose n Dual))) by (apply LC; [apply neg_transpose_vectors|exact (LL_det n rays Dual LI DM)]).
  destruct (other_good n Hn rays Dual LI DM lll solve LC' 0 ltac:(discriminate)) as (z0 & E0 & L0 & P0 & _).
  destruct (Nat.eq_dec l 2) as [->|N2].
  - pose proof (second_good n Hn rays Dual LI DM lll solve LC' SC) as S2. destruct (compute_omega lll solve Dual n 2 2) as [z|e]; [destruct S2 as (_ & (A & B & _) & _); auto|]. rewrite E0. auto.
  - destruct (other_good n Hn rays Dual LI DM lll solve LC' l N2) as (z & E & A & B & _). rewrite E. auto.
Qed.
Lemma short_vector_contract lll solve : lll_contract lll -> solve_contract solve -> omega_contract (short_vector lll solve) /\ primitive_choice (short_vector lll solve).
Proof.
  intros LC SC. split; intros n l rays Hn NV LI; destruct (short_vector_good n rays lll solve l Hn NV LI LC SC) as [A B]; [|exact B]. split; [exact A|]. now apply primitive_nonzero.
Qed.
Lemma short_vector_decreasing n lll solve : (n <= 5)%nat -> lll_contract lll -> lll_reduces lll -> solve_contract solve -> decreasing n (short_vector lll solve).
Proof.
  intros H5 LC RD SC rays NV LI D1. destruct (Nat.eq_dec n 0) as [->|N0]; [change (det 0 (vat rays)) with 1 in D1; cbn in D1; lia|]. assert (Hn : (0 < n)%nat) by lia.
  destruct (dual_exists n rays NV LI) as (c & Dual & _ & _ & _ & _ & DM). rewrite !(short_vector_eq n Hn rays NV LI lll solve Dual) by auto. assert (DL := LL_det n rays Dual LI DM).
  assert (LC' : new_basis n (neg_transpose n Dual) (lll (neg_transpose n Dual))) by (apply LC; [apply neg_transpose_vectors|exact DL]). assert (RD' : lll_reduced n (fst (lll (neg_transpose n Dual)))) by (apply RD; [apply neg_transpose_vectors|exact DL]).
  destruct (other_good n Hn rays Dual LI DM lll solve LC' 0 ltac:(discriminate)) as (z0 & E0 & _ & _ & F0). rewrite E0. rewrite (F0 ltac:(discriminate)).
  pose proof (second_good n Hn rays Dual LI DM lll solve LC' SC) as S2. pose proof (lowers_5 n Hn rays Dual NV LI DM lll solve LC' SC RD' H5 D1) as X.
  destruct (compute_omega lll solve Dual n 2 2) as [z2|e]; [apply X; reflexivity|lia].
Qed.
