(** Property theorems about the choice of short vectors (C79). *)
From Coq Require Import QArith.
From Verif Require Import Common ZMat Hermite HermiteProofs Det DetProofs Piped PipedSpec PipedProofs PipedProofs4 Irrational BarvinokSpec BarvinokProofs2 BarvinokProofs4 Omega OmegaSpec OmegaProofs OmegaProofs2 OmegaProofs4 OmegaProofs5 OmegaProofs6 OmegaProofs7.
Open Scope Z_scope.

(** What the statements below are about: a cone with independent rays, its matrix of facet
    normals, and an LLL that returns some other basis. *)
Definition cone_and_dual (n : nat) (rays Dual : list (list Z)) (lll : list (list Z) -> list (list Z) * list (list Z)) (solve : list (list Z) -> list Z -> option (list Z)) : Prop :=
  (0 < n)%nat /\ n_vectors n rays /\ lin_indep n rays /\ (exists c, det_and_facets n rays = Ok c /\ facet_matrix c = Ok Dual) /\ lll_contract lll /\ solve_contract solve.
Lemma unpack n rays Dual lll solve : cone_and_dual n rays Dual lll solve ->
  (0 < n)%nat /\ n_vectors n rays /\ lin_indep n rays /\ dual_matrix n rays Dual /\ new_basis n (neg_transpose n Dual) (lll (neg_transpose n Dual)) /\ solve_contract solve /\ det n (ent (neg_transpose n Dual)) <> 0.
Proof.
  intros (Hn & NV & LI & (c & E & EM) & LC & SC). destruct (dual_exists n rays NV LI) as (c' & M & E' & _ & _ & EM' & DM). rewrite E in E'. injection E' as <-. rewrite EM in EM'. injection EM' as <-.
  pose proof (LL_det n rays Dual LI DM) as D0. split; [exact Hn|]. split; [exact NV|]. split; [exact LI|]. split; [exact DM|]. split; [|split; [exact SC|exact D0]]. apply LC; [apply neg_transpose_vectors|exact D0].
Qed.

(** The vector chosen is an integer vector of the right length whose entries have no common
    divisor (in particular not 0), for each way of choosing it that the code uses; the only
    failure is the overflow of the loop counter, for the second choice, from dimension 10 on. *)
Theorem short_vector_primitive : forall n rays Dual lll solve l, cone_and_dual n rays Dual lll solve ->
  match compute_omega lll solve Dual n l l with
  | Ok z => length z = n /\ primitive n z /\ exists k, (k < n)%nat /\ nth k z 0 <> 0
  | Err e => e = IntOverflow /\ l = 2%nat /\ (10 <= n)%nat
  end.
Proof.
  intros n rays Dual lll solve l CD. destruct (unpack _ _ _ _ _ CD) as (Hn & NV & LI & DM & LC & SC & _). destruct (Nat.eq_dec l 2) as [->|N2].
  - pose proof (second_good n Hn rays Dual LI DM lll solve LC SC) as S2. destruct (compute_omega lll solve Dual n 2 2) as [z|e] eqn:E; [destruct S2 as (_ & (A & B & _) & _); split; [exact A|]; split; [exact B|now apply primitive_nonzero]|].
    split; [|split; [reflexivity|exact S2]]. revert E. unfold compute_omega. destruct (lll (neg_transpose n Dual)) as [L U]. cbn [Nat.eqb]. unfold box_search. destruct (int_max <? 10 ^ Z.of_nat n - 1); cbn [bind]; [congruence|]. destruct (solve _ _); discriminate.
  - destruct (other_good n Hn rays Dual LI DM lll solve LC l N2) as (z & E & A & B & _). rewrite E. split; [exact A|]. split; [exact B|now apply primitive_nonzero].
Qed.
Print Assumptions short_vector_primitive.

(** The first choice is best among the rows of the transformation matrix: no row gives a
    smaller largest determinant, unless that is 1000000 or more. *)
Theorem first_choice_best : forall n rays Dual lll solve z, cone_and_dual n rays Dual lll solve ->
  compute_omega lll solve Dual n 0 0 = Ok z ->
  let U := snd (lll (neg_transpose n Dual)) in
  forall j b, (j < n)%nat -> 0 <= b < 1000000 -> dets_within n rays (nth j U []) b -> dets_within n rays z b.
Proof.
  intros n rays Dual lll solve z CD E U j b Hj Hb. destruct (unpack _ _ _ _ _ CD) as (Hn & NV & LI & DM & LC & SC & _).
  destruct (other_good n Hn rays Dual LI DM lll solve LC 0 ltac:(discriminate)) as (z0 & E0 & L0 & _ & F0). rewrite E in E0. injection E0 as <-. rewrite (F0 ltac:(discriminate)) in *.
  destruct (index_ok n Hn rays Dual LI DM lll LC) as (Hi & HI & _).
  rewrite (dets_norm n Hn rays Dual NV LI DM) by (try lia; apply (U_row n Hn rays Dual lll LC); auto). rewrite (dets_norm n Hn rays Dual NV LI DM) by (try lia; exact L0).
  unfold U. rewrite <- (row_norm n Hn rays Dual lll LC j Hj). unfold first. rewrite <- (row_norm n Hn rays Dual lll LC _ Hi). intros H. specialize (HI j Hj). lia.
Qed.
Print Assumptions first_choice_best.

(** The second choice is best among all combinations of those rows with coefficients from -5
    to 4, not all 0: none of them gives a smaller largest determinant, unless that is
    100000000 or more. *)
Theorem second_choice_best : forall n rays Dual lll solve z, cone_and_dual n rays Dual lll solve ->
  compute_omega lll solve Dual n 2 2 = Ok z ->
  let U := snd (lll (neg_transpose n Dual)) in
  forall c z' b, (forall j, (j < n)%nat -> -5 <= c j <= 4) -> (exists j, (j < n)%nat /\ c j <> 0) -> combines n c U z' ->
  0 <= b < 100000000 -> dets_within n rays z' b -> dets_within n rays z b.
Proof.
  intros n rays Dual lll solve z CD E U c z' b Rc Nc [L' C'] Hb. destruct (unpack _ _ _ _ _ CD) as (Hn & NV & LI & DM & LC & SC & _).
  pose proof (second_good n Hn rays Dual LI DM lll solve LC SC) as S2. rewrite E in S2. destruct S2 as (_ & (LZ & _) & MIN).
  rewrite !(dets_norm n Hn rays Dual NV LI DM) by (auto; lia). set (cl := map c (seq 0 n)). assert (Lc : length cl = n) by (unfold cl; now rewrite map_length, seq_length).
  assert (Ec : forall k, (k < n)%nat -> nth k cl 0 = c k) by (intros k Hk; unfold cl; now rewrite nth_map_seq).
  assert (EZ : z' = mix n cl U). { apply nth_ext with (d := 0) (d' := 0); [now rewrite mix_length|]. rewrite L'. intros k Hk. rewrite C', mix_nth, sumz_zsum by auto. apply zsum_ext. intros j Hj. rewrite Ec by auto. reflexivity. }
  rewrite EZ. unfold U. rewrite <- (norm_mix n Dual lll LC cl). intros H.
  destruct (MIN cl) as [X|X]; [|destruct Nc as (k & Hk & Nk); exists k; split; [exact Hk|now rewrite Ec]|lia|lia].
  split; [exact Lc|]. apply Forall_forall. intros d Hd. apply (In_nth _ _ 0) in Hd as (k & Hk & <-). rewrite Lc in Hk. rewrite Ec by auto. now apply Rc.
Qed.
Print Assumptions second_choice_best.

(** If the LLL basis is reduced, both choices lower the determinant when it is large; ... *)
Theorem large_determinant_lowered : forall n rays Dual lll solve l z, cone_and_dual n rays Dual lll solve ->
  lll_reduced n (fst (lll (neg_transpose n Dual))) ->
  4 ^ Z.of_nat (n * (n - 1) / 2) < 3 ^ Z.of_nat (n * (n - 1) / 2) * (det n (vat rays) * det n (vat rays)) ->
  l = 0%nat \/ l = 2%nat -> compute_omega lll solve Dual n l l = Ok z -> lowers n rays z.
Proof.
  intros n rays Dual lll solve l z CD RD BIG HL E. destruct (unpack _ _ _ _ _ CD) as (Hn & NV & LI & DM & LC & SC & _).
  rewrite <- (tri_double n), Nat.mul_comm, Nat.div_mul in BIG by discriminate. apply (good_lowers n Hn rays Dual NV LI DM lll LC RD); [|exact BIG].
  destruct HL as [-> | ->].
  - destruct (other_good n Hn rays Dual LI DM lll solve LC 0 ltac:(discriminate)) as (z0 & E0 & _ & _ & F0). rewrite E in E0. injection E0 as <-. rewrite (F0 ltac:(discriminate)). exact (first_good n Hn rays Dual LI DM lll LC).
  - pose proof (second_good n Hn rays Dual LI DM lll solve LC SC) as S2. rewrite E in S2. apply S2.
Qed.
Print Assumptions large_determinant_lowered.

(** ... and up to dimension 5 at least one of them always does, so that the assertion after
    the second choice cannot fail there. *)
Theorem lowered_to_dimension_5 : forall n rays Dual lll solve z0 z2, cone_and_dual n rays Dual lll solve ->
  lll_reduced n (fst (lll (neg_transpose n Dual))) -> (n <= 5)%nat -> 1 < Z.abs (det n (vat rays)) ->
  compute_omega lll solve Dual n 0 0 = Ok z0 -> compute_omega lll solve Dual n 2 2 = Ok z2 -> lowers n rays z0 \/ lowers n rays z2.
Proof.
  intros n rays Dual lll solve z0 z2 CD RD H5 D1 E0 E2. destruct (unpack _ _ _ _ _ CD) as (Hn & NV & LI & DM & LC & SC & _).
  destruct (other_good n Hn rays Dual LI DM lll solve LC 0 ltac:(discriminate)) as (z0' & E0' & _ & _ & F0). rewrite E0 in E0'. injection E0' as <-. rewrite (F0 ltac:(discriminate)).
  exact (lowers_5 n Hn rays Dual NV LI DM lll solve LC SC RD H5 D1 z2 E2).
Qed.
Print Assumptions lowered_to_dimension_5.

(** The choice depends on the rays only: whatever cone object with these rays is given, with
    facets and divisors belonging to them. *)
Theorem choice_from_rays : forall n c Dual lll solve l z, (0 < n)%nat -> n_vectors n (s_rays c) -> s_det c = det n (vat (s_rays c)) -> s_det c <> 0 ->
  dual_to n (s_rays c) (s_facets c) (s_divs c) -> (forall j, (j < n)%nat -> (nth j (s_divs c) 0 | s_det c)) ->
  facet_matrix c = Ok Dual -> compute_omega lll solve Dual n l l = Ok z -> z = short_vector lll solve l (s_rays c).
Proof.
  intros n c Dual lll solve l z Hn NV ED D0 DU DV EM E. assert (LI : lin_indep n (s_rays c)) by (apply det_indep; now rewrite ED in D0).
  destruct (facet_matrix_dual n c) as (M & EM' & DM); [repeat (split; auto)|]. rewrite EM in EM'. injection EM' as <-. rewrite (short_vector_eq n Hn _ NV LI lll solve Dual l DM), E. reflexivity.
Qed.
Print Assumptions choice_from_rays.

(** As choice function for decompositions (C29, C30, C72, C73) it has all the properties
    those theorems ask for. *)
Theorem short_vector_contracts : forall lll solve, lll_contract lll -> solve_contract solve ->
  omega_contract (short_vector lll solve) /\ primitive_choice (short_vector lll solve) /\
  (lll_reduces lll -> forall n, (n <= 5)%nat -> decreasing n (short_vector lll solve)).
Proof.
  intros lll solve LC SC. destruct (short_vector_contract lll solve LC SC) as [A B]. split; [exact A|]. split; [exact B|]. intros RD n H5. now apply short_vector_decreasing.
Qed.
Print Assumptions short_vector_contracts.

(** The contracts asked of NTL can be met: every non-singular integer matrix has a reduced
    basis, and Cramer's rule solves the system. *)
Theorem reduction_exists : exists lll solve, lll_contract lll /\ lll_reduces lll /\ solve_contract solve.
Proof. exists some_lll, some_solve. split; [exact some_lll_ok|]. split; [exact some_lll_reduces|exact some_solve_ok]. Qed.
Print Assumptions reduction_exists.

(** Two cones, with the LLL that changes nothing: of index 5, where the matrix is already
    reduced, and of index 7. *)
Definition no_lll (A : list (list Z)) : list (list Z) * list (list Z) := (A, map (fun i => unit_row (length A) i) (seq 0 (length A))).
Lemma no_lll_ok : lll_contract no_lll.
Proof.
  intros n A [LA FA] _. unfold no_lll. rewrite LA. set (I := map (fun i => unit_row n i) (seq 0 n)).
  assert (EI : forall i j, (i < n)%nat -> (j < n)%nat -> vat I i j = delta i j). { intros i j Hi Hj. unfold vat, I. rewrite nth_map_seq by auto. unfold unit_row. rewrite nth_map_seq by auto. reflexivity. }
  split; [split; auto|]. split.
  - split; [unfold I; now rewrite map_length, seq_length|]. apply Forall_forall. intros r Hr. apply in_map_iff in Hr as (i & <- & _). unfold unit_row. now rewrite map_length, seq_length.
  - split.
    + exists delta. intros i j Hi Hj. rewrite !sumz_zsum. split; [rewrite (zsum_ext n _ (fun k => delta i k * delta k j)) by (intros k Hk; now rewrite EI)|rewrite (zsum_ext n _ (fun k => delta i k * delta k j)) by (intros k Hk; now rewrite EI)]; rewrite (zsum_single n _ i Hi) by (intros k _ N; rewrite (delta_neq i k) by auto; ring); rewrite delta_eq; unfold delta; destruct (i =? j)%nat; reflexivity.
    + intros i j Hi Hj. rewrite sumz_zsum. rewrite (zsum_ext n _ (fun k => delta i k * vat A k j)) by (intros k Hk; now rewrite EI). rewrite (zsum_single n _ i Hi) by (intros k _ N; rewrite delta_neq by auto; ring). rewrite delta_eq. ring.
Qed.
Example cone_and_dual_met :
  cone_and_dual 2 [[1;2];[-2;1]] [[-1;-2];[2;-1]] no_lll some_solve /\
  compute_omega no_lll some_solve [[-1;-2];[2;-1]] 2 0 0 = Ok [1;0] /\ compute_omega no_lll some_solve [[-1;-2];[2;-1]] 2 2 2 = Ok [-1;0] /\
  lll_reduced 2 (fst (no_lll (neg_transpose 2 [[-1;-2];[2;-1]]))) /\ lowers 2 [[1;2];[-2;1]] [1;0].
Proof.
  split; [|split; [vm_compute; reflexivity|split; [vm_compute; reflexivity|split]]].
  - split; [lia|]. split; [split; [reflexivity|repeat constructor]|]. split; [apply det_indep; vm_compute; discriminate|]. split; [eexists; split; [vm_compute; reflexivity|vm_compute; reflexivity]|]. split; [exact no_lll_ok|exact some_solve_ok].
  - exists (fun i k => inject_Z (vat [[1;-2];[2;1]] i k)), (fun _ _ => 0%Q). cbv zeta. split; [|split; [|split]].
    + intros i k Hi Hk. destruct i as [|[|i]]; [| |lia]; destruct k as [|[|k]]; [| |lia| | |lia]; vm_compute; reflexivity.
    + intros i j Hij Hj. assert (i = 0%nat /\ j = 1%nat) as [-> ->] by lia. vm_compute. reflexivity.
    + intros i j _ _. split; vm_compute; discriminate.
    + intros i Hi. assert (i = 0%nat) as -> by lia. vm_compute. discriminate.
  - intros i Hi. destruct i as [|[|i]]; [vm_compute; reflexivity|vm_compute; reflexivity|lia].
Qed.
(** From dimension 10 on the loop counter of the second choice overflows. *)
Example overflow_at_10 : forall lll solve, compute_omega lll solve (map (fun i => unit_row 10 i) (seq 0 10)) 10 2 2 = Err IntOverflow.
Proof. intros lll solve. unfold compute_omega. destruct (lll _). reflexivity. Qed.
