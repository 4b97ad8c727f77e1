(** ComputeOmega on the facet matrix of a cone. *)
From Verif Require Import Common ZMat Hermite HermiteProofs Det DetProofs Piped PipedSpec PipedProofs PipedProofs4 Irrational IrrationalProofs BarvinokProofs3 BarvinokProofs4 Omega OmegaSpec OmegaProofs.
Open Scope Z_scope.

Lemma neg_transpose_ent m D i j : (i < m)%nat -> (j < m)%nat -> ent (neg_transpose m D) i j = - ent D j i.
Proof. intros Hi Hj. unfold ent at 1, neg_transpose. rewrite nth_map_seq by auto. now rewrite nth_map_seq. Qed.
Lemma neg_transpose_vectors m D : n_vectors m (neg_transpose m D).
Proof. split; [unfold neg_transpose; now rewrite map_length, seq_length|]. apply Forall_forall. intros r Hr. apply in_map_iff in Hr as (i & <- & _). now rewrite map_length, seq_length. Qed.
Lemma scalar_det_nz n d : d <> 0 -> det n (fun i j => d * delta i j) <> 0.
Proof. intros H. apply det_lower_nz; intros i; [rewrite delta_eq; lia|]. intros j Hij Hj. rewrite delta_neq by lia. ring. Qed.
Lemma invertible_det n A : invertible n A -> det n A <> 0.
Proof. intros (B & E & _) H. assert (X : det n (mmul n A B) = 1) by (rewrite (det_ext n _ _ E); apply det_id). rewrite det_mul, H in X. lia. Qed.
Lemma left_kernel n A (x : nat -> Z) : det n A <> 0 -> (forall j, (j < n)%nat -> zsum n (fun k => x k * A k j) = 0) -> forall k, (k < n)%nat -> x k = 0.
Proof.
  intros D H k Hk. assert (X : zsum n (fun j => zsum n (fun i => x i * A i j) * adj n A j k) = 0) by (apply zsum_zero; intros j Hj; rewrite H by auto; ring).
  rewrite (zsum_ext n _ (fun j => zsum n (fun i => x i * (A i j * adj n A j k)))) in X by (intros j _; rewrite Z.mul_comm, <- zsum_scal; apply zsum_ext; intros; ring).
  rewrite zsum_swap in X. rewrite (zsum_ext n _ (fun i => x i * (det n A * delta i k))) in X.
  - rewrite (zsum_single n _ k Hk) in X by (intros i _ N; rewrite delta_neq by auto; ring). rewrite delta_eq in X. nia.
  - intros i Hi. rewrite zsum_scal. f_equal. exact (adj_r n A i k Hi Hk).
Qed.
Lemma primitive_mul n U c z : invertible n (ent U) -> (forall m, (forall k, (k < n)%nat -> (m | nth k c 0)) -> (m | 1)) -> (forall k, (k < n)%nat -> nth k z 0 = zsum n (fun j => nth j c 0 * ent U j k)) -> primitive n z.
Proof.
  intros (W & E1 & _) P H m D. apply P. intros k Hk.
  assert (X : nth k c 0 = zsum n (fun i => nth i z 0 * W i k)).
  { rewrite (zsum_ext n _ (fun i => zsum n (fun j => nth j c 0 * (ent U j i * W i k)))) by (intros i Hi; rewrite H by auto; rewrite Z.mul_comm, <- zsum_scal; apply zsum_ext; intros; ring).
    rewrite zsum_swap. rewrite (zsum_ext n _ (fun j => nth j c 0 * delta j k)) by (intros j Hj; rewrite zsum_scal; f_equal; exact (E1 j k Hj Hk)).
    rewrite (zsum_single n _ k Hk) by (intros i _ N; rewrite delta_neq by auto; ring). rewrite delta_eq. ring. }
  rewrite X. assert (G : forall p (f : nat -> Z), (forall i, (i < p)%nat -> (m | f i)) -> (m | zsum p f)); [|apply G; intros i Hi; apply Z.divide_mul_l, D, Hi].
  induction p as [|p IH]; intros f Hf; cbn [zsum]; [apply Z.divide_0_r|]. apply Z.divide_add_r; [apply IH; intros; apply Hf; lia|apply Hf; lia].
Qed.

Section Cone.
Context (n : nat) (Hn : (0 < n)%nat) (rays Dual : list (list Z)) (NV : n_vectors n rays) (LI : lin_indep n rays) (DM : dual_matrix n rays Dual).
Let D := det n (ent rays).
Let LL := neg_transpose n Dual.
Lemma D_nz : D <> 0.
Proof. exact (indep_det n rays LI). Qed.
Lemma rays_LL i j : (i < n)%nat -> (j < n)%nat -> mmul n (ent rays) (ent LL) i j = D * delta i j.
Proof.
  intros Hi Hj. pose proof (proj2 DM i j Hi Hj) as X. rewrite sumz_zsum in X. unfold mmul. rewrite (zsum_ext n _ (fun k => -1 * (vat rays i k * vat Dual j k))).
  - rewrite zsum_scal, X. unfold delta, D. destruct (i =? j)%nat; change (vat rays) with (ent rays); ring.
  - intros k Hk. unfold LL. rewrite neg_transpose_ent by auto. change (ent rays i k) with (vat rays i k). change (ent Dual j k) with (vat Dual j k). ring.
Qed.
Lemma LL_det : det n (ent LL) <> 0.
Proof. intros H. apply (scalar_det_nz n D D_nz). rewrite <- (det_ext n (mmul n (ent rays) (ent LL))) by (intros i j Hi Hj; now apply rays_LL). rewrite det_mul, H. ring. Qed.
Lemma LL_det_pow : det n (ent LL) * D = D ^ Z.of_nat n.
Proof.
  assert (X : det n (fun i j => D * delta i j) = D ^ Z.of_nat n).
  { clear. generalize D. intros d. assert (G : forall k, (k <= n)%nat -> det n (fun i j => (if (i <? k)%nat then d else 1) * delta i j) = d ^ Z.of_nat k).
    - induction k as [|k IH]; intros Hk; [rewrite (det_ext n _ delta) by (intros i j _ _; replace (i <? 0)%nat with false by (destruct i; reflexivity); ring); rewrite det_id; reflexivity|].
      rewrite Nat2Z.inj_succ, Z.pow_succ_r by lia. rewrite <- (IH ltac:(lia)). set (A := fun i j => (if (i <? k)%nat then d else 1) * delta i j).
      rewrite (det_ext n _ (setrow A k (fun j => 0 + d * A k j))).
      + rewrite (det_lin n A k (fun _ => 0) d (A k)) by lia. rewrite (ml_zero n (det n) (det_ML n) A k (fun _ => 0)) by (auto; lia). rewrite (ml_row n (det n) (det_ML n)). lia.
      + intros i j _ _. destruct (Nat.eq_dec i k) as [->|N]; [rewrite setrow_at; unfold A; rewrite Nat.ltb_irrefl, (proj2 (Nat.ltb_lt k (S k))) by lia; ring|]. rewrite setrow_ne by auto. unfold A. f_equal. destruct (Nat.ltb_spec i (S k)), (Nat.ltb_spec i k); auto; lia.
    - rewrite <- (G n (Nat.le_refl n)). apply det_ext. intros i j Hi _. now rewrite (proj2 (Nat.ltb_lt i n) Hi). }
  assert (Y : det n (mmul n (ent rays) (ent LL)) = det n (fun i j => D * delta i j)) by (apply det_ext; intros i j Hi Hj; now apply rays_LL). rewrite <- X, <- Y, det_mul. fold D. ring.
Qed.
Lemma LL_adj i j : (i < n)%nat -> (j < n)%nat -> ent LL i j = adj n (ent rays) i j.
Proof.
  intros Hi Hj. assert (X : mmul n (adj n (ent rays)) (mmul n (ent rays) (ent LL)) i j = adj n (ent rays) i j * D).
  { unfold mmul at 1. rewrite (zsum_ext n _ (fun k => adj n (ent rays) i k * (D * delta k j))) by (intros k Hk; now rewrite rays_LL). rewrite (zsum_single n _ j Hj) by (intros k _ N; rewrite delta_neq by auto; ring). rewrite delta_eq. ring. }
  rewrite <- mmul_assoc in X. unfold mmul at 1 in X. rewrite (zsum_ext n _ (fun k => D * delta i k * ent LL k j)) in X by (intros k Hk; f_equal; exact (adj_l n (ent rays) i k Hi Hk)).
  rewrite (zsum_single n _ i Hi) in X by (intros k _ N; rewrite (delta_neq i k) by auto; ring). rewrite delta_eq in X. pose proof D_nz. nia.
Qed.
Lemma LL_dets z i : (i < n)%nat -> length z = n -> zsum n (fun k => nth k z 0 * ent LL k i) = det n (vat (with_ray rays i z)).
Proof.
  intros Hi Lz. unfold with_ray. rewrite <- upd_split by (destruct NV; lia). change (@vat) with (@ent). rewrite upd_det by (auto; apply NV). apply zsum_ext. intros k Hk. now rewrite LL_adj.
Qed.
(** The norm of z LL is the largest determinant. *)
Lemma dets_norm z b : length z = n -> 0 <= b -> (dets_within n rays z b <-> norm (mix n z LL) n <= b).
Proof.
  intros Lz Hb. split.
  - intros H. apply norm_le; [exact Hb|]. intros i Hi. rewrite mix_nth, LL_dets by auto. now apply H.
  - intros H i Hi. rewrite <- LL_dets by auto. rewrite <- mix_nth by auto. pose proof (norm_ge (mix n z LL) n i Hi). lia.
Qed.

Context (lll : list (list Z) -> list (list Z) * list (list Z)) (solve : list (list Z) -> list Z -> option (list Z)).
Context (LC : new_basis n LL (lll LL)) (SC : solve_contract solve).
Let L := fst (lll LL). Let U := snd (lll LL).
Let index := short_row n L.
Lemma U_inv : invertible n (ent U).
Proof.
  unfold U. destruct (lll LL) as [L0 U0] eqn:E. cbn [snd]. destruct LC as (_ & _ & (W & HW) & _). exists W. split; intros i j Hi Hj; destruct (HW i j Hi Hj) as [A B]; rewrite sumz_zsum in A, B; [exact A|exact B].
Qed.
Lemma L_U i j : (i < n)%nat -> (j < n)%nat -> ent L i j = mmul n (ent U) (ent LL) i j.
Proof. intros Hi Hj. unfold L, U. destruct (lll LL) as [L0 U0]. cbn [fst snd]. destruct LC as (_ & _ & _ & H). specialize (H i j Hi Hj). rewrite sumz_zsum in H. exact H. Qed.
Lemma U_vectors : n_vectors n U.
Proof. unfold U. destruct (lll LL) as [L0 U0]. cbn [snd]. apply LC. Qed.
Lemma U_row i : (i < n)%nat -> length (nth i U []) = n.
Proof. intros Hi. destruct U_vectors as [A B]. rewrite Forall_forall in B. apply B, nth_In. lia. Qed.
Lemma L_det : det n (ent L) <> 0.
Proof.
  rewrite (det_ext n _ (mmul n (ent U) (ent LL))) by (intros i j Hi Hj; now apply L_U). rewrite det_mul. pose proof (invertible_det n _ U_inv). pose proof LL_det. nia.
Qed.
Lemma L_rows i : (i < n)%nat -> norm (nth i L []) n <> 0.
Proof.
  intros Hi H. assert (X := left_kernel n (ent L) (fun k => delta i k) L_det). cbv beta in X. specialize (X).
  assert (Y : delta i i = 0); [|rewrite delta_eq in Y; discriminate]. apply X; [|exact Hi]. intros j Hj. rewrite zsum_delta by auto. exact (norm_0 _ _ H j Hj).
Qed.
Lemma mix_assoc c i : (i < n)%nat -> nth i (mix n c L) 0 = nth i (mix n (mix n c U) LL) 0.
Proof.
  intros Hi. rewrite !mix_nth by auto. rewrite (zsum_ext n _ (fun j => zsum n (fun k => nth j c 0 * (ent U j k * ent LL k i)))).
  - rewrite zsum_swap. apply zsum_ext. intros k Hk. rewrite mix_nth by auto. rewrite (Z.mul_comm (zsum _ _)), <- zsum_scal. apply zsum_ext. intros j _. ring.
  - intros j Hj. rewrite L_U by auto. unfold mmul. now rewrite zsum_scal.
Qed.
Lemma norm_mix c : norm (mix n c L) n = norm (mix n (mix n c U) LL) n.
Proof. apply norm_ext. intros i Hi. now apply mix_assoc. Qed.
Lemma unit_mix M i k : (i < n)%nat -> (k < n)%nat -> nth k (mix n (unit_row n i) M) 0 = nth k (nth i M []) 0.
Proof. intros Hi Hk. now apply mix_unit. Qed.
Lemma unit_mix_U i : (i < n)%nat -> mix n (unit_row n i) U = nth i U [].
Proof. intros Hi. apply nth_ext with (d := 0) (d' := 0); [now rewrite mix_length, U_row|]. rewrite mix_length. intros k Hk. now apply unit_mix. Qed.
Lemma row_norm i : (i < n)%nat -> norm (nth i L []) n = norm (mix n (nth i U []) LL) n.
Proof. intros Hi. rewrite <- unit_mix_U by auto. rewrite <- norm_mix. apply norm_ext. intros k Hk. symmetry. now apply unit_mix. Qed.
Lemma unit_primitive i : (i < n)%nat -> forall m, (forall k, (k < n)%nat -> (m | nth k (unit_row n i) 0)) -> (m | 1).
Proof. intros Hi m H. specialize (H i Hi). unfold unit_row in H. rewrite nth_map_seq in H by auto. now rewrite Nat.eqb_refl in H. Qed.
Lemma row_primitive i : (i < n)%nat -> primitive n (nth i U []).
Proof.
  intros Hi. apply (primitive_mul n U (unit_row n i)); [exact U_inv|now apply unit_primitive|]. intros k Hk. rewrite <- mix_nth by auto. symmetry. now apply unit_mix.
Qed.
Lemma index_ok : (index < n)%nat /\ (forall j, (j < n)%nat -> norm (nth index L []) n <= norm (nth j L []) n \/ 1000000 <= norm (nth j L []) n) /\ norm (nth index L []) n <= norm (nth 0 L []) n.
Proof. exact (short_row_ok n L Hn L_rows). Qed.
(** The first choice, and the second. *)
Definition first := nth index U [].
Definition is_good (z : list Z) : Prop := length z = n /\ primitive n z /\ norm (mix n z LL) n <= norm (nth 0 L []) n.
Lemma first_good : is_good first.
Proof. destruct index_ok as (Hi & _ & H0). split; [now apply U_row|]. split; [now apply row_primitive|]. unfold first. rewrite <- row_norm by auto. exact H0. Qed.
Lemma unit_range i : (i < n)%nat -> in_range n (unit_row n i) /\ exists d, In d (unit_row n i) /\ d <> -5.
Proof.
  intros Hi. split; [split; [unfold unit_row; now rewrite map_length, seq_length|]|].
  - apply Forall_forall. intros d Hd. apply in_map_iff in Hd as (j & <- & _). destruct (i =? j)%nat; lia.
  - exists 1. split; [|lia]. apply in_map_iff. exists i. rewrite Nat.eqb_refl. split; [reflexivity|apply in_seq; lia].
Qed.
Lemma solve_mix c : exists z, solve LL (mix n c L) = Some z /\ z = mix n c U.
Proof.
  destruct (SC n LL (mix n c L) (neg_transpose_vectors n Dual) LL_det (mix_length n c L)) as (z & E & Lz & Hz).
  - exists (mix n c U). split; [apply mix_length|]. intros j Hj. rewrite sumz_zsum, mix_assoc by auto. rewrite mix_nth by auto. reflexivity.
  - exists z. split; [exact E|]. apply nth_ext with (d := 0) (d' := 0); [now rewrite mix_length|]. intros k Hk. rewrite Lz in Hk.
    assert (X : nth k z 0 - nth k (mix n c U) 0 = 0); [|lia]. refine (left_kernel n (ent LL) (fun k => nth k z 0 - nth k (mix n c U) 0) LL_det _ k Hk). intros j Hj.
    specialize (Hz j Hj). rewrite sumz_zsum, mix_assoc, mix_nth in Hz by auto. rewrite (zsum_ext n _ (fun k => nth k z 0 * vat LL k j + -1 * (nth k (mix n c U) 0 * ent LL k j))) by (intros; change (vat LL) with (ent LL); ring). rewrite zsum_add, zsum_scal, Hz. ring.
Qed.
Lemma mix_0_coef c : norm (mix n c L) n = 0 -> length c = n -> forall k, (k < n)%nat -> nth k c 0 = 0.
Proof. intros H Lc. apply (left_kernel n (ent L) (fun k => nth k c 0) L_det). intros j Hj. rewrite <- mix_nth by auto. now apply (norm_0 _ n). Qed.
Lemma second_good : match compute_omega lll solve Dual n 2 2 with
  | Err e => (10 <= n)%nat
  | Ok z => (n < 10)%nat /\ is_good z /\ forall c, in_range n c -> (exists k, (k < n)%nat /\ nth k c 0 <> 0) -> norm (mix n z LL) n <= norm (mix n c L) n \/ 100000000 <= norm (mix n c L) n
  end.
Proof.
  unfold compute_omega. fold LL. assert (E0 : lll LL = (L, U)) by (unfold L, U; apply surjective_pairing). rewrite E0. cbn [Nat.eqb]. fold index.
  destruct index_ok as (Hi & HI & H0). pose proof (box_search_ok n L Hn index Hi H0) as B. destruct (box_search n L index) as [v|e]; cbn [bind]; [|exact B].
  destruct B as (M10 & (c & HC) & MIN & SM).
  assert (MIN' : forall c, in_range n c -> (exists k, (k < n)%nat /\ nth k c 0 <> 0) -> norm v n <= norm (mix n c L) n \/ 100000000 <= norm (mix n c L) n).
  { intros c' R' (k & Hk & Nk). assert (N0 : norm (mix n c' L) n <> 0) by (intros X; exact (Nk (mix_0_coef c' X (proj1 R') k Hk))).
    destruct (existsb (fun d => negb (d =? -5)) c') eqn:EX.
    - apply existsb_exists in EX as (d & Hd & Nd). apply negb_true_iff, Z.eqb_neq in Nd. destruct (MIN c' R' (ex_intro _ d (conj Hd Nd))) as [X|[X|X]]; [contradiction|now right|now left].
    - (* all coefficients -5: the same as all coefficients 1, times -5 *)
      assert (A5 : forall k, (k < n)%nat -> nth k c' 0 = -5). { intros j Hj. destruct (Z.eq_dec (nth j c' 0) (-5)) as [X|X]; [exact X|exfalso]. assert (Y : existsb (fun d => negb (d =? -5)) c' = true); [|congruence]. apply existsb_exists. exists (nth j c' 0). split; [apply nth_In; destruct R'; lia|]. now apply negb_true_iff, Z.eqb_neq. }
      set (ones := map (fun _ => 1) (seq 0 n)). assert (N1 : forall k, (k < n)%nat -> nth k ones 0 = 1) by (intros j Hj; unfold ones; now rewrite nth_map_seq).
      assert (R1 : in_range n ones) by (split; [unfold ones; now rewrite map_length, seq_length|]; apply Forall_forall; intros d Hd; apply in_map_iff in Hd as (j & <- & _); lia).
      assert (E5 : forall k, (k < n)%nat -> nth k (mix n c' L) 0 = -5 * nth k (mix n ones L) 0) by (intros j Hj; rewrite !mix_nth by auto; rewrite <- zsum_scal; apply zsum_ext; intros i Hi'; rewrite A5, N1 by auto; ring).
      assert (LE : norm (mix n ones L) n <= norm (mix n c' L) n). { apply norm_le; [apply norm_nonneg|]. intros j Hj. pose proof (norm_ge (mix n c' L) n j Hj) as X. rewrite E5 in X by auto. lia. }
      assert (NZ1 : norm (mix n ones L) n <> 0). { intros X. pose proof (mix_0_coef ones X (proj1 R1) 0%nat Hn) as Y. rewrite N1 in Y by auto. discriminate. }
      destruct (MIN ones R1) as [X|[X|X]]; [exists 1; split; [apply in_map_iff; exists 0%nat; split; [reflexivity|apply in_seq; lia]|lia]|contradiction|right; lia|left; lia]. }
  assert (G0 : norm v n <= norm (nth 0 L []) n).
  { destruct SM as [->|SM]; [exact H0|]. destruct (MIN' (unit_row n 0)) as [X|X]; [apply unit_range, Hn|exists 0%nat; split; [exact Hn|]; unfold unit_row; rewrite nth_map_seq by auto; cbn; discriminate| |].
    - rewrite (norm_ext (mix n (unit_row n 0) L) (nth 0 L [])) in X by (intros k Hk; apply unit_mix; auto). exact X.
    - rewrite (norm_ext (mix n (unit_row n 0) L) (nth 0 L [])) in X by (intros k Hk; apply unit_mix; auto). lia. }
  destruct HC as [(R & EV & LT & NZ)|EV].
  - destruct (solve_mix c) as (z & ES & EZ). rewrite EV, ES. subst z. split; [exact M10|]. rewrite EV in *.
    split; [|intros c' R' N'; rewrite <- norm_mix; now apply MIN']. split; [apply mix_length|]. split; [|rewrite <- norm_mix; exact G0].
    apply (primitive_mul n U c); [exact U_inv| |intros k Hk; now rewrite mix_nth].
    intros m Hm. destruct R as [Lc Rc]. rewrite Forall_forall in Rc. assert (Rk : forall k, (k < n)%nat -> -5 <= nth k c 0 <= 4) by (intros k Hk; apply Rc, nth_In; lia).
    assert (C0 : exists k, (k < n)%nat /\ nth k c 0 <> 0).
    { destruct (some_nonzero n (fun k => nth k c 0)) as [X|X]; [exact X|exfalso]. apply NZ. apply Z.le_antisymm; [|apply norm_nonneg]. apply norm_le; [lia|]. intros i Hi'. rewrite mix_nth, zsum_zero by (auto; intros; rewrite X by auto; ring). lia. }
    destruct (Z.eq_dec (Z.abs m) 1) as [M1|M1]; [exists m; nia|exfalso]. destruct (Z.eq_dec m 0) as [->|M0].
    { destruct C0 as (k & Hk & Nk). apply Nk. destruct (Hm k Hk) as (q & X). lia. }
    (* c / |m| is smaller *)
    set (c2 := map (fun x => x / m) c). assert (L2 : length c2 = n) by (unfold c2; now rewrite map_length).
    assert (N2 : forall k, (k < n)%nat -> nth k c 0 = m * nth k c2 0). { intros k Hk. unfold c2. rewrite (nth_indep (map (fun x => x / m) c) 0 (0 / m)) by (rewrite map_length; lia). rewrite (map_nth (fun x => x / m)). destruct (Hm k Hk) as (q & X). rewrite X, Z.div_mul by auto. ring. }
    assert (R2 : in_range n c2). { split; [exact L2|]. apply Forall_forall. intros d Hd. apply (In_nth _ _ 0) in Hd as (k & Hk & <-). rewrite L2 in Hk. specialize (Rk k Hk). rewrite N2 in Rk by auto. nia. }
    assert (E2 : forall k, (k < n)%nat -> nth k (mix n c L) 0 = m * nth k (mix n c2 L) 0) by (intros k Hk; rewrite !mix_nth by auto; rewrite <- zsum_scal; apply zsum_ext; intros i Hi'; rewrite N2 by auto; ring).
    assert (LT2 : 2 * norm (mix n c2 L) n <= norm (mix n c L) n).
    { assert (G : norm (mix n c2 L) n <= norm (mix n c L) n / 2); [|pose proof (Z.mul_div_le (norm (mix n c L) n) 2 ltac:(lia)); lia]. apply norm_le; [apply Z.div_pos; [apply norm_nonneg|lia]|]. intros k Hk. apply Z.div_le_lower_bound; [lia|]. pose proof (norm_ge (mix n c L) n k Hk) as X. rewrite E2, Z.abs_mul in X by auto. nia. }
    pose proof (norm_nonneg (mix n c2 L) n). destruct (MIN' c2 R2) as [X|X]; [|lia|lia].
    destruct C0 as (k & Hk & Nk). exists k. split; [exact Hk|]. intros Y. apply Nk. rewrite N2, Y by auto. ring.
  - destruct (solve_mix (unit_row n index)) as (z & ES & EZ). rewrite unit_mix_U in EZ by auto. assert (EV2 : mix n (unit_row n index) L = v).
    { rewrite EV. apply nth_ext with (d := 0) (d' := 0); [rewrite mix_length; symmetry; unfold L; destruct (lll LL) as [L0 U0]; cbn [fst]; destruct LC as ([LA LB] & _); rewrite Forall_forall in LB; apply LB, nth_In; rewrite LA; exact Hi|]. rewrite mix_length. intros k Hk. now apply unit_mix. }
    rewrite EV2 in ES. rewrite ES. subst z. split; [exact M10|]. split; [exact first_good|]. intros c' R' N'. rewrite <- row_norm by auto. rewrite <- EV. now apply MIN'.
Qed.
Lemma other_good l : l <> 2%nat -> exists z, compute_omega lll solve Dual n l l = Ok z /\ length z = n /\ primitive n z /\ (l <> 1%nat -> z = first).
Proof.
  intros N2. unfold compute_omega. fold LL. assert (E0 : lll LL = (L, U)) by (unfold L, U; apply surjective_pairing). rewrite E0. fold index. rewrite (proj2 (Nat.eqb_neq l 2) N2).
  destruct (Nat.eqb_spec l 1) as [->|N1].
  - rewrite (proj2 (Nat.eqb_neq n 0)) by lia. pose proof (Nat.mod_upper_bound (S index) n ltac:(lia)) as MB. rewrite (proj2 (Nat.leb_le (S index mod n + 1) n)) by lia. unfold row_at. rewrite (proj2 (Nat.leb_le 1 (S index mod n + 1))), (proj2 (Nat.leb_le (S index mod n + 1) n)) by lia. cbn [andb].
    replace (S index mod n + 1 - 1)%nat with (S index mod n)%nat by lia. eexists. split; [reflexivity|]. split; [now apply U_row|]. split; [now apply row_primitive|]. congruence.
  - exists first. split; [reflexivity|]. destruct first_good as (A & B & _). auto.
Qed.
End Cone.
