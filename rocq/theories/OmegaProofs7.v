(** The contracts asked of NTL can be met. *)
From Coq Require Import QArith.
From Verif Require Import Common ZMat Hermite HermiteProofs Det DetProofs Piped PipedSpec PipedProofs OmegaSpec OmegaProofs3 LLLProofs.
Open Scope Z_scope.

Definition table (n : nat) (A : zmat) : list (list Z) := map (fun i => map (fun j => A i j) (seq 0 n)) (seq 0 n).
Lemma table_ent n A i j : (i < n)%nat -> (j < n)%nat -> ent (table n A) i j = A i j.
Proof. intros Hi Hj. unfold ent, table. rewrite nth_map_seq by auto. now rewrite nth_map_seq. Qed.
Lemma table_vectors n A : n_vectors n (table n A).
Proof. split; [unfold table; now rewrite map_length, seq_length|]. apply Forall_forall. intros r Hr. apply in_map_iff in Hr as (i & <- & _). now rewrite map_length, seq_length. Qed.
Lemma bound_ok z : z < Z.of_nat (S (Z.to_nat z)).
Proof. lia. Qed.
Definition some_lll (A : list (list Z)) : list (list Z) * list (list Z) :=
  let n := length A in
  match Z.eq_dec (det n (ent A)) 0 with
  | left _ => (A, A)
  | right D0 => let U := proj1_sig (reduced_exists n _ (ent A) D0 (bound_ok (potential n (ent A)))) in (table n (mmul n U (ent A)), table n U)
  end.
Definition some_solve (A : list (list Z)) (y : list Z) : option (list Z) :=
  let n := length A in Some (map (fun k => zsum n (fun j => nth j y 0 * adj n (ent A) j k) / det n (ent A)) (seq 0 n)).
Lemma some_solve_ok : solve_contract some_solve.
Proof.
  intros n A y [LA _] D0 Ly (x & Lx & Hx). change (vat A) with (ent A) in D0. assert (E : some_solve A y = Some x); [|exists x; split; [exact E|split; auto]].
  unfold some_solve. rewrite LA. f_equal. apply nth_ext with (d := 0) (d' := 0); rewrite map_length, seq_length; [congruence|]. intros k Hk. rewrite nth_map_seq by auto.
  assert (X : zsum n (fun j => nth j y 0 * adj n (ent A) j k) = nth k x 0 * det n (ent A)); [|rewrite X; now apply Z.div_mul].
  rewrite (zsum_ext n _ (fun j => zsum n (fun i => nth i x 0 * (ent A i j * adj n (ent A) j k)))).
  - rewrite zsum_swap. rewrite (zsum_ext n _ (fun i => nth i x 0 * (det n (ent A) * delta i k))) by (intros i Hi; rewrite zsum_scal; f_equal; exact (adj_r n (ent A) i k Hi Hk)). rewrite (zsum_single n _ k Hk) by (intros i _ N; rewrite delta_neq by auto; ring). rewrite delta_eq. ring.
  - intros j Hj. rewrite <- (Hx j Hj), sumz_zsum. rewrite Z.mul_comm, <- zsum_scal. apply zsum_ext. intros i Hi. change (vat A i j) with (ent A i j). ring.
Qed.
Lemma some_lll_eq n A : n_vectors n A -> det n (vat A) <> 0 -> exists U, unimodular n U /\ reduced n (mmul n U (ent A)) /\ some_lll A = (table n (mmul n U (ent A)), table n U).
Proof.
  intros [LA _] D0. unfold some_lll. rewrite LA. destruct (Z.eq_dec (det n (ent A)) 0) as [X|X]; [contradiction|]. destruct (reduced_exists _ _ _ X _) as (U & UM & R). cbn [proj1_sig]. exists U. auto.
Qed.
Lemma some_lll_ok : lll_contract some_lll.
Proof.
  intros n A NV D0. destruct (some_lll_eq n A NV D0) as (U & UM & _ & ->). split; [apply table_vectors|]. split; [apply table_vectors|]. split.
  - exists (fun i j => det n U * adj n U i j). intros i j Hi Hj. rewrite !sumz_zsum. split.
    + rewrite (zsum_ext n _ (fun k => det n U * (U i k * adj n U k j))) by (intros k Hk; change (vat (table n U) i k) with (ent (table n U) i k); rewrite table_ent by auto; ring). rewrite zsum_scal. pose proof (adj_r n U i j Hi Hj) as X. unfold mmul in X. rewrite X. unfold unimodular in UM. rewrite Z.mul_assoc, UM. unfold delta. destruct (i =? j)%nat; reflexivity.
    + rewrite (zsum_ext n _ (fun k => det n U * (adj n U i k * U k j))) by (intros k Hk; change (vat (table n U) k j) with (ent (table n U) k j); rewrite table_ent by auto; ring). rewrite zsum_scal. pose proof (adj_l n U i j Hi Hj) as X. unfold mmul in X. rewrite X. unfold unimodular in UM. rewrite Z.mul_assoc, UM. unfold delta. destruct (i =? j)%nat; reflexivity.
  - intros i j Hi Hj. rewrite sumz_zsum. change (vat (table n (mmul n U (ent A))) i j) with (ent (table n (mmul n U (ent A))) i j). rewrite table_ent by auto. unfold mmul. apply zsum_ext. intros k Hk. change (vat (table n U) i k) with (ent (table n U) i k). rewrite table_ent by auto. reflexivity.
Qed.
Lemma some_lll_reduces : lll_reduces some_lll.
Proof.
  intros n A NV D0. destruct (some_lll_eq n A NV D0) as (U & _ & (g & mu & [EL OR] & SR & LO) & ->). cbn [fst]. exists g, mu. cbv zeta. split; [|split; [exact OR|split; [exact SR|exact LO]]].
  intros i k Hi Hk. change (vat (table n (mmul n U (ent A))) i k) with (ent (table n (mmul n U (ent A))) i k). rewrite table_ent by auto. now apply EL.
Qed.
