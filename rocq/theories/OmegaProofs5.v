(** The short vectors lower the determinants. *)
From Verif Require Import Common ZMat Hermite HermiteProofs Det DetProofs Piped PipedSpec PipedProofs PipedProofs4 Irrational IrrationalProofs BarvinokSpec BarvinokProofs2 BarvinokProofs3 BarvinokProofs4 Omega OmegaSpec OmegaProofs OmegaProofs2 OmegaProofs4.
Open Scope Z_scope.

Section Cone.
Context (n : nat) (Hn : (0 < n)%nat) (rays Dual : list (list Z)) (NV : n_vectors n rays) (LI : lin_indep n rays) (DM : dual_matrix n rays Dual).
Let D := det n (ent rays).
Let LL := neg_transpose n Dual.
Context (lll : list (list Z) -> list (list Z) * list (list Z)) (solve : list (list Z) -> list Z -> option (list Z)).
Context (LC : new_basis n LL (lll LL)) (SC : solve_contract solve).
Let L := fst (lll LL). Let U := snd (lll LL).
Context (RD : lll_reduced n L).
Let q := zsum n (fun k => vat L 0 k * vat L 0 k).

Lemma lowers_norm z : length z = n -> norm (mix n z LL) n < Z.abs D -> lowers n rays z.
Proof.
  intros Lz H i Hi. change (firstn i rays ++ z :: skipn (S i) rays) with (with_ray rays i z). change (vat rays) with (ent rays). fold D.
  pose proof (norm_nonneg (mix n z LL) n). assert (X : dets_within n rays z (norm (mix n z LL) n)) by (apply (dets_norm n Hn rays Dual NV LI DM z); auto; apply Z.le_refl).
  specialize (X i Hi). lia.
Qed.
Lemma det_U_sq : det n (ent U) * det n (ent U) = 1.
Proof.
  destruct (U_inv n Dual lll LC) as (W & A & _). assert (X : det n (ent U) * det n W = 1). { rewrite <- det_mul. change (snd (lll (neg_transpose n Dual))) with U in A. rewrite (det_ext n _ delta A). apply det_id. }
  assert (Y : det n (ent U) = 1 \/ det n (ent U) = -1) by (apply (Z.eq_mul_1 _ _ X)). destruct Y as [->| ->]; reflexivity.
Qed.
Lemma det_L_sq : det n (ent L) * det n (ent L) * (D * D) = D ^ Z.of_nat n * D ^ Z.of_nat n.
Proof.
  rewrite (det_ext n (ent L) (mmul n (ent U) (ent LL))) by (intros i j Hi Hj; exact (L_U n Dual lll LC i j Hi Hj)). rewrite det_mul. pose proof (LL_det_pow n rays Dual DM) as P. fold LL D in P. rewrite <- P. pose proof det_U_sq. set (u := det n (ent U)) in *. set (l := det n (ent LL)). replace (u * l * (u * l) * (D * D)) with (u * u * (l * D * (l * D))) by ring. rewrite H. ring.
Qed.
Lemma norm_sq : norm (nth 0 L []) n * norm (nth 0 L []) n <= q.
Proof.
  assert (G : forall m (f : nat -> Z) j, (j < m)%nat -> f j * f j <= zsum m (fun k => f k * f k)).
  { induction m as [|m IH]; intros f j Hj; [lia|]. cbn [zsum]. assert (P : 0 <= zsum m (fun k => f k * f k)) by (clear; induction m as [|m IH]; cbn [zsum]; [lia|nia]). destruct (Nat.eq_dec j m) as [->|X]; [lia|]. specialize (IH f j ltac:(lia)). nia. }
  assert (A : norm (nth 0 L []) n <= Z.sqrt q).
  { assert (0 <= q) by (pose proof (G n (fun k => vat L 0 k) 0%nat Hn) as X; cbv beta in X; fold q in X; nia). apply norm_le; [apply Z.sqrt_nonneg|]. intros i Hi. apply Z.sqrt_le_square; [assumption|apply Z.abs_nonneg|]. pose proof (G n (fun k => vat L 0 k) i Hi) as B. cbv beta in B. fold q in B. change (vat L 0 i) with (nth i (nth 0 L []) 0) in B. set (u := nth i (nth 0 L []) 0) in *. nia. }
  pose proof (norm_nonneg (nth 0 L []) n). assert (0 <= q) by (pose proof (G n (fun k => vat L 0 k) 0%nat Hn) as X; cbv beta in X; fold q in X; nia). pose proof (Z.sqrt_spec q H0) as [SQ _]. eapply Z.le_trans; [|exact SQ]. apply Z.mul_le_mono_nonneg; assumption.
Qed.
Lemma row0_short : 4 ^ Z.of_nat (tri n) < 3 ^ Z.of_nat (tri n) * (D * D) -> norm (nth 0 L []) n < Z.abs D.
Proof.
  intros H. destruct (Z_lt_ge_dec (norm (nth 0 L []) n) (Z.abs D)) as [X|X]; [exact X|exfalso].
  pose proof (reduced_det n L Hn RD) as R. cbv zeta in R. fold q in R. pose proof norm_sq as NQ. pose proof (D_nz n rays LI) as D0. fold D in D0.
  assert (QD : D * D <= q) by nia. assert (QP : (D * D) ^ Z.of_nat n <= q ^ Z.of_nat n) by (apply Z.pow_le_mono_l; nia). rewrite Z.pow_mul_l in QP. pose proof det_L_sq as DS. set (dd := det n (ent L) * det n (ent L)) in *. set (P := D ^ Z.of_nat n * D ^ Z.of_nat n) in *.
  assert (PP : 0 < P) by (unfold P; pose proof (Z.pow_nonzero D (Z.of_nat n) D0 ltac:(lia)); nia).
  assert (T3 : 0 < 3 ^ Z.of_nat (tri n)) by (apply Z.pow_pos_nonneg; lia). assert (T4 : 0 < 4 ^ Z.of_nat (tri n)) by (apply Z.pow_pos_nonneg; lia). set (a := 3 ^ Z.of_nat (tri n)) in *. set (b := 4 ^ Z.of_nat (tri n)) in *. clearbody a b P dd.
  assert (A : a * P <= b * dd) by nia. assert (DP : 0 < D * D) by nia. assert (B : a * P * (D * D) <= b * P). { replace (b * P) with (b * dd * (D * D)) by (rewrite <- DS; ring). apply Z.mul_le_mono_nonneg_r; lia. }
  assert (E : (a * (D * D)) * P <= b * P) by (replace (a * (D * D) * P) with (a * P * (D * D)) by ring; exact B). apply Z.mul_le_mono_pos_r in E; [lia|exact PP].
Qed.
(** For a large determinant the first choice is enough, and so is the second. *)
Lemma good_lowers z : is_good n Dual lll z -> 4 ^ Z.of_nat (tri n) < 3 ^ Z.of_nat (tri n) * (D * D) -> lowers n rays z.
Proof. intros (Lz & _ & H) B. apply lowers_norm; [exact Lz|]. fold LL in H. fold L in H. pose proof (row0_short B). lia. Qed.
(** A vector with determinants at most half. *)
Lemma half_vector : 1 < Z.abs D -> exists z, length z = n /\ (exists k, (k < n)%nat /\ nth k z 0 <> 0) /\ 2 * norm (mix n z LL) n <= Z.abs D.
Proof.
  intros D1. pose proof (D_nz n rays LI) as D0. fold D in D0. destruct (short_some n rays D0 (proj1 NV) D1) as (j & Hj & FS). apply find_some in FS as [_ EX]. apply existsb_exists in EX as (i & Hi & Ei). apply in_seq in Hi. apply negb_true_iff, Z.eqb_neq in Ei. fold D in Ei.
  set (e := Z.abs D) in *. set (a := fun i => adj n (ent rays) j i) in *. set (r := fun i => (2 * a i + e) / (2 * e)). set (z := map (fun k => delta j k - zsum n (fun i => Z.sgn D * r i * ent rays i k)) (seq 0 n)).
  assert (Lz : length z = n) by (unfold z; now rewrite map_length, seq_length).
  assert (EW : forall t, (t < n)%nat -> nth t (mix n z LL) 0 = a t - e * r t).
  { intros t Ht. rewrite mix_nth by auto. rewrite (zsum_ext n _ (fun k => delta j k * ent LL k t + -1 * zsum n (fun i => Z.sgn D * r i * (ent rays i k * ent LL k t)))).
    - rewrite zsum_add, zsum_scal. rewrite (zsum_single n (fun k => delta j k * ent LL k t) j Hj) by (intros k Hk N; rewrite delta_neq by auto; ring). rewrite delta_eq. rewrite zsum_swap.
      rewrite (zsum_ext n (fun i0 => zsum n (fun i1 => Z.sgn D * r i0 * (ent rays i0 i1 * ent LL i1 t))) (fun s => Z.sgn D * r s * (D * delta s t))).
      + rewrite (zsum_single n _ t Ht) by (intros k _ N; rewrite delta_neq by auto; ring). rewrite delta_eq. unfold LL. rewrite (LL_adj n Hn rays Dual LI DM) by auto. unfold a, e. nia.
      + intros s Hs. rewrite zsum_scal. f_equal. exact (rays_LL n rays Dual DM s t Hs Ht).
    - intros k Hk. unfold z. rewrite nth_map_seq by auto. rewrite Z.mul_sub_distr_r. unfold Z.sub. f_equal. replace (- (zsum n (fun i0 => Z.sgn D * r i0 * ent rays i0 k) * ent LL k t)) with (-1 * (ent LL k t * zsum n (fun i0 => Z.sgn D * r i0 * ent rays i0 k))) by ring. f_equal. rewrite <- zsum_scal. apply zsum_ext. intros; ring. }
  exists z. split; [exact Lz|]. split.
  - destruct (some_nonzero n (fun k => nth k z 0)) as [X|X]; [exact X|exfalso]. assert (W0 : a i - e * r i = 0) by (rewrite <- EW by lia; rewrite mix_nth by lia; apply zsum_zero; intros k Hk; rewrite X by auto; ring).
    apply Ei. apply Z.mod_divide; [exact D0|]. apply Z.divide_abs_l. fold e. exists (r i). change (adj n (ent rays) j i) with (a i). lia.
  - assert (G : norm (mix n z LL) n <= e / 2); [|pose proof (Z.mul_div_le e 2 ltac:(lia)); lia]. apply norm_le; [apply Z.div_pos; lia|]. intros t Ht. rewrite EW by auto. apply Z.div_le_lower_bound; [lia|].
    pose proof (Z.div_mod (2 * a t + e) (2 * e) ltac:(lia)) as X. pose proof (Z.mod_pos_bound (2 * a t + e) (2 * e) ltac:(lia)) as Y. fold (r t) in X. clearbody r. nia.
Qed.
(** Up to dimension 5, one of the two choices lowers. *)
Lemma lowers_5 : (n <= 5)%nat -> 1 < Z.abs D -> forall z2, compute_omega lll solve Dual n 2 2 = Ok z2 -> lowers n rays (first n Dual lll) \/ lowers n rays z2.
Proof.
  intros H5 D1 z2 E2. pose proof (second_good n Hn rays Dual LI DM lll solve LC SC) as S2. rewrite E2 in S2. destruct S2 as (_ & G2 & MIN). fold LL L in MIN.
  destruct (Z_lt_ge_dec (4 ^ Z.of_nat (tri n)) (3 ^ Z.of_nat (tri n) * (D * D))) as [B|B]; [left; apply good_lowers; [exact (first_good n Hn rays Dual LI DM lll LC)|exact B]|].
  assert (DB : Z.abs D < 100).
  { assert (DD : D * D < 10000); [|nia]. clear -B H5 Hn. clearbody D. assert (Y : n = 1%nat \/ n = 2%nat \/ n = 3%nat \/ n = 4%nat \/ n = 5%nat) by lia. destruct Y as [->|[->|[->|[->| ->]]]]; [change (1 >= 1 * (D * D)) in B|change (4 >= 3 * (D * D)) in B|change (64 >= 27 * (D * D)) in B|change (4096 >= 729 * (D * D)) in B|change (1048576 >= 59049 * (D * D)) in B]; lia. }
  right. apply lowers_norm; [exact (proj1 G2)|]. destruct (Z_lt_ge_dec (norm (nth 0 L []) n) (Z.abs D)) as [X|X]; [destruct G2 as (_ & _ & G2); fold LL in G2; fold L in G2; lia|].
  destruct (half_vector D1) as (z & Lz & (k & Hk & Nk) & HZ).
  destruct (U_inv n Dual lll LC) as (W & WA & WB). change (snd (lll (neg_transpose n Dual))) with U in WA, WB.
  set (c := mix n z (map (fun i => map (fun j => W i j) (seq 0 n)) (seq 0 n))).
  assert (EC : forall i, (i < n)%nat -> nth i c 0 = zsum n (fun k => nth k z 0 * W k i)). { intros i Hi. unfold c. rewrite mix_nth by auto. apply zsum_ext. intros t Ht. unfold ent. rewrite nth_map_seq by auto. now rewrite nth_map_seq. }
  assert (Lc : length c = n) by apply mix_length.
  assert (CU : mix n c U = z).
  { apply nth_ext with (d := 0) (d' := 0); [now rewrite mix_length|]. rewrite mix_length. intros t Ht. rewrite mix_nth by auto. rewrite (zsum_ext n _ (fun i => zsum n (fun k => nth k z 0 * (W k i * ent U i t)))).
    - rewrite zsum_swap. rewrite (zsum_ext n (fun i => zsum n (fun i0 => nth i z 0 * (W i i0 * ent U i0 t))) (fun i => nth i z 0 * delta i t)); [|intros i Hi; rewrite zsum_scal; f_equal; exact (WB i t Hi Ht)]. rewrite (zsum_single n _ t Ht) by (intros i _ N; rewrite delta_neq by auto; ring). rewrite delta_eq. ring.
    - intros i Hi. rewrite EC by auto. rewrite Z.mul_comm, <- zsum_scal. apply zsum_ext. intros; ring. }
  pose proof (norm_mix n Dual lll LC c) as NM. fold LL L U in NM. rewrite CU in NM.
  assert (C0 : exists k, (k < n)%nat /\ nth k c 0 <> 0).
  { destruct (some_nonzero n (fun k => nth k c 0)) as [Y|Y]; [exact Y|exfalso]. apply Nk. rewrite <- CU, mix_nth by auto. apply zsum_zero. intros j Hj. rewrite Y by auto. ring. }
  assert (CB : forall l, (l < n)%nat -> Z.abs (nth l c 0) <= match l with O => 5 | _ => 3 end).
  { apply (small_coefficients n L (fun l => nth l c 0) (Z.abs D) Hn H5 RD); [lia|pose proof norm_sq as NQ; fold q; nia|].
    intros t Ht. pose proof (norm_ge (mix n c L) n t Ht) as Y. rewrite mix_nth in Y by auto. rewrite NM in Y. change (vat L) with (ent L). lia. }
  assert (FIN : forall c', in_range n c' -> (exists k, (k < n)%nat /\ nth k c' 0 <> 0) -> norm (mix n c' L) n = norm (mix n c L) n -> norm (mix n z2 LL) n < Z.abs D).
  { intros c' R' N' E. destruct (MIN c' R' N') as [Y|Y]; rewrite E, NM in Y; lia. }
  assert (RG : forall c' : list Z, length c' = n -> (forall l, (l < n)%nat -> -5 <= nth l c' 0 <= 4) -> in_range n c').
  { intros c' L' H. split; [exact L'|]. apply Forall_forall. intros d Hd. apply (In_nth _ _ 0) in Hd as (t & Ht & <-). apply H. lia. }
  destruct (Z.eq_dec (nth 0 c 0) 5) as [C5|C5].
  - set (c' := map Z.opp c). assert (E' : forall t, nth t c' 0 = - nth t c 0) by (intros t; unfold c'; change 0 with (- 0) at 1; apply map_nth). apply (FIN c').
    + apply RG; [unfold c'; now rewrite map_length|]. intros [|l] Hl; rewrite E'; [lia|]. specialize (CB (S l) Hl). cbn in CB. lia.
    + destruct C0 as (t & Ht & Nt). exists t. split; [exact Ht|]. rewrite E'. lia.
    + assert (EM : forall t, (t < n)%nat -> nth t (mix n c' L) 0 = - nth t (mix n c L) 0). { intros t Ht. rewrite !mix_nth by auto. rewrite (zsum_ext n _ (fun j => -1 * (nth j c 0 * ent L j t))) by (intros j Hj; rewrite E'; ring). rewrite zsum_scal. ring. }
      apply Z.le_antisymm; apply norm_le; try apply norm_nonneg; intros t Ht; [rewrite EM, Z.abs_opp by auto; now apply norm_ge|]. pose proof (norm_ge (mix n c' L) n t Ht) as Y. rewrite EM, Z.abs_opp in Y by auto. exact Y.
  - apply (FIN c); [|exact C0|reflexivity]. apply RG; [exact Lc|]. intros [|l] Hl; [specialize (CB 0%nat Hl); cbv iota in CB; lia|]. specialize (CB (S l) Hl). cbv iota in CB. lia.
Qed.
End Cone.
Lemma nth_times q l k : nth k (map (fun x => x * q) l) 0 = nth k l 0 * q.
Proof. revert k; induction l as [|x l IH]; intros [|k]; cbn [map nth]; auto. Qed.
(** The facet matrix of a cone is the dual matrix. *)
Lemma facet_matrix_dual n c : cone_ok n c -> exists M, facet_matrix c = Ok M /\ dual_matrix n (s_rays c) M.
Proof.
  intros (NV & ED & D0 & (FV & LD & DU & DP & _) & DV). destruct FV as [LF FF]. unfold facet_matrix. destruct (facet_rows_ok (s_det c) (s_facets c) (s_divs c)) as (rs & E & L & N); [congruence|intros j Hj; rewrite LF in Hj; split; [apply DP|apply DV]; auto|].
  rewrite LF in L, N. exists rs. split; [exact E|]. split.
  - split; [exact L|]. apply Forall_forall. intros r Hr. apply (In_nth _ _ []) in Hr as (j & Hj & <-). rewrite N by lia. rewrite map_length. rewrite Forall_forall in FF. apply FF, nth_In. lia.
  - intros i j Hi Hj. specialize (DU i j Hi Hj). rewrite sumz_zsum in *. rewrite (zsum_ext n _ (fun k => (s_det c / nth j (s_divs c) 0) * (vat (s_rays c) i k * vat (s_facets c) j k))).
    + rewrite zsum_scal, DU. destruct (i =? j)%nat; [|ring]. change (vat (s_rays c)) with (ent (s_rays c)); rewrite <- ED. destruct (DV j Hj) as (t & Et). specialize (DP j Hj). rewrite Et, Z.div_mul by lia. ring.
    + intros k Hk. assert (X : vat rs j k = vat (s_facets c) j k * (s_det c / nth j (s_divs c) 0)); [|rewrite X; ring]. unfold vat at 1. rewrite N by auto. apply nth_times.
Qed.
