(** irrationalizeCone: the new vertex. *)
From Coq Require Import QArith Qfield Qround Qabs Lqa Znumtheory.
From Verif Require Import Common ZMat Hermite HermiteProofs Det DetProofs RatVec RatVecSpec RatVecProofs Piped PipedSpec PipedProofs PipedProofs2 PipedProofs3 PipedProofs4 ConeSpec ConeProofs Irrational IrrationalProofs.
Open Scope Q_scope.

Lemma pow_inj_pos k : (0 <= k)%Z -> 0 < inject_Z (2 ^ k).
Proof. intros H. change 0 with (inject_Z 0). rewrite <- Zlt_Qlt. now apply Z.pow_pos_nonneg. Qed.
Lemma q_nz x : 0 < x -> ~ x == 0.
Proof. intros H E. rewrite E in H. discriminate. Qed.
Lemma simplify_ok n cv N : reachable positive (CZero n) cv -> dim cv = n -> (0 <= N)%Z ->
  exists cv' kk, simplify_cube n cv 1 (2 * N) = Ok (cv', 1, 2 ^ kk)%Z /\ (0 <= kk)%Z /\ (2 * N + 1 < 2 ^ kk)%Z /\ reachable positive (CZero n) cv' /\ dim cv' = n /\
  forall i, (i < n)%nat -> exists a, coord cv' i == inject_Z a / inject_Z (2 ^ (kk + 1)) /\ 0 <= coord cv i - coord cv' i /\ coord cv i - coord cv' i < 1 / inject_Z (2 ^ (kk + 1)).
Proof.
  intros R D HN. destruct (num_bits_spec (2 * N + 1) ltac:(lia)) as [K0 K1]. set (kk := num_bits (2 * N + 1)) in *.
  destruct (reachable_inv positive _ cv (or_intror eq_refl) R) as [(I1 & I2 & _) _].
  assert (PW : (0 < 2 ^ (kk + 1))%Z) by (apply Z.pow_pos_nonneg; lia).
  unfold simplify_cube. rewrite Z.div_1_r. cbv zeta. fold kk. cbn [Z.eqb].
  assert (EX : existsb (fun d => (d =? 0)%Z) (firstn n (denominator cv)) = false).
  { destruct (existsb _ _) eqn:E; auto. apply existsb_exists in E as (d & Hd & E). apply Z.eqb_eq in E. rewrite Forall_forall in I2. assert (In d (denominator cv)) as ID by (rewrite <- (firstn_skipn n); apply in_app_iff; now left). specialize (I2 d ID). unfold positive in I2. lia. }
  rewrite EX. set (ns := map _ (seq 0 n)). assert (Ln : length ns = n) by (unfold ns; now rewrite map_length, seq_length).
  destruct (set_loop_ok (CZero n) (2 ^ (kk + 1))%Z ns PW cv 0%nat R ltac:(lia)) as (cv' & E & R' & D' & B & _). exists cv', kk. rewrite E. cbn [bind]. split; auto. split; auto. split; auto. split; auto. split; [congruence|].
  intros i Hi. destruct (B i ltac:(lia)) as [B1 B2]. rewrite Nat.sub_0_r in B1. unfold ns in B1. rewrite nth_map_seq in B1 by auto. fold (num_at cv i) in B1. fold (den_at cv i) in B1. exists (num_at cv' i). assert (DE : (0 < den_at cv i)%Z) by (apply (Forall_den positive cv i); [unfold positive; lia|exact I2]).
  split; [unfold coord; now rewrite B2|]. rewrite Z.shiftl_mul_pow2 in B1 by lia. set (p := (2 ^ (kk + 1))%Z) in *. pose proof (Z.div_mod (num_at cv i * p) (den_at cv i) ltac:(lia)) as DM. pose proof (Z.mod_pos_bound (num_at cv i * p) (den_at cv i) DE) as MB. rewrite <- B1 in DM. set (r := ((num_at cv i * p) mod den_at cv i)%Z) in *.
  assert (Dq : 0 < inject_Z (den_at cv i)) by (change 0 with (inject_Z 0); now rewrite <- Zlt_Qlt). assert (Pq : 0 < inject_Z p) by (change 0 with (inject_Z 0); now rewrite <- Zlt_Qlt).
  assert (EQ : coord cv i - coord cv' i == (inject_Z r / inject_Z (den_at cv i)) / inject_Z p).
  { unfold coord. rewrite B2. assert (G : inject_Z (num_at cv i) * inject_Z p == inject_Z (den_at cv i) * inject_Z (num_at cv' i) + inject_Z r) by (rewrite <- !inject_Z_mult, <- inject_Z_plus; now rewrite DM).
    assert (G2 : inject_Z (num_at cv i) == (inject_Z (den_at cv i) * inject_Z (num_at cv' i) + inject_Z r) / inject_Z p) by (rewrite <- G; field; now apply q_nz). rewrite G2. field. split; now apply q_nz. }
  rewrite EQ. assert (R0 : 0 <= inject_Z r / inject_Z (den_at cv i)) by (apply quot_nonneg; nia). assert (R1 : inject_Z r / inject_Z (den_at cv i) < 1) by (apply quot_lt1; nia). split.
  - apply Qle_shift_div_l; [auto|lra].
  - unfold Qdiv at 1 3. apply Qmult_lt_compat_r; auto. now apply Qinv_lt_0_compat.
Qed.
Lemma pow_ratio (a b e : Z) : (0 <= a)%Z -> (0 <= e)%Z -> b = (a + e)%Z -> inject_Z (2 ^ a) / inject_Z (2 ^ b) == 1 / inject_Z (2 ^ e).
Proof. intros Ha He ->. rewrite Z.pow_add_r by lia. rewrite inject_Z_mult. field. split; apply q_nz, pow_inj_pos; lia. Qed.
Section Irr2.
Context (n : nat) (Hn : (0 < n)%nat) (c : scone) (OK : cone_ok n c).
Lemma irrationalize_core depth v : scales n v -> exists nv kk, irrationalize depth n c v = Ok nv /\ (0 <= kk)%Z /\ reachable nonzero (CScalar (enumerator nv) (nth 0 (denominator nv) 0%Z)) nv /\ dim nv = n /\ near n c v nv /\
  forall i, (i < n)%nat -> exists a, coord nv i == inject_Z a / inject_Z (2 ^ (kk + 1)) + 1 / inject_Z (2 ^ (kk + 2 + Z.of_nat i * (irr_bits depth n c + 2))).
Proof.
  intros SVv. destruct (center_ok n Hn c OK v SVv) as (cv & N & E & HN & R & D & PH & NB). destruct (simplify_ok n cv N R D HN) as (cv' & kk & E2 & K0 & K1 & R' & D' & CO).
  destruct (scale_exact positive _ cv' (or_intror eq_refl) R') as (cv2 & cw & cs & E3 & Ncs & Lw & SC & Pcs). rewrite D' in *. specialize (Pcs eq_refl Hn).
  set (K := irr_bits depth n c). assert (HK : (0 <= K)%Z). { unfold K, irr_bits. apply num_bits_spec. apply Z.mul_nonneg_nonneg; [lia|]. apply Z.pow_nonneg. apply Z.mul_nonneg_nonneg; [apply Z.pow_nonneg; lia|]. unfold max_entry.
    assert (G1 : forall r m, (0 <= m)%Z -> (0 <= fold_left (fun m x => if (m <? Z.abs x)%Z then Z.abs x else m) r m)%Z) by (induction r as [|x r IH]; intros m Hm; cbn [fold_left]; auto; apply IH; destruct (m <? Z.abs x)%Z; lia).
    assert (G2 : forall rs m, (0 <= m)%Z -> (0 <= fold_left (fun m r => fold_left (fun m x => if (m <? Z.abs x)%Z then Z.abs x else m) r m) rs m)%Z) by (induction rs as [|x r IH]; intros m Hm; cbn [fold_left]; auto). now apply G2. }
  unfold irrationalize, stability_cube. rewrite (i_ld n c OK), Nat.eqb_refl, E. cbn [bind]. rewrite E2. cbn [bind]. rewrite E3. cbn [bind]. cbv zeta. fold K.
  set (nums := map (fun i => Z.shiftl 1 (Z.of_nat (n - 1 - i) * (K + 2))) (seq 0 n)). set (den := Z.shiftl (2 ^ kk) (Z.of_nat n * (K + 2) - (K + 1) + 1)).
  assert (EX0 : (0 <= Z.of_nat n * (K + 2) - (K + 1) + 1)%Z) by nia.
  assert (DEN : den = (2 ^ (kk + (Z.of_nat n * (K + 2) - K)))%Z).
  { unfold den. rewrite Z.shiftl_mul_pow2 by auto. rewrite <- Z.pow_add_r by lia. f_equal. ring. }
  assert (DP : (0 < den)%Z) by (rewrite DEN; apply Z.pow_pos_nonneg; nia).
  assert (NU : forall i, (i < n)%nat -> nth i nums 0%Z = (2 ^ (Z.of_nat (n - 1 - i) * (K + 2)))%Z).
  { intros i Hi. unfold nums. rewrite nth_map_seq by auto. rewrite Z.shiftl_mul_pow2 by nia. ring. }
  destruct (lcm_code_ok cs den ltac:(lia) ltac:(lia)) as (cm & Ec & C1 & [ka Hka] & [kb Hkb] & _ & C5). specialize (C5 Pcs DP). rewrite Ec. cbn [bind]. rewrite (proj2 (Z.eqb_neq cs 0)), (proj2 (Z.eqb_neq den 0)) by lia. cbn [orb].
  set (nn := map (fun i => (nth i cw 0 * (cm / cs) + nth i nums 0 * (cm / den))%Z) (seq 0 n)). set (nv := rv_scalar nn cm). assert (Ln : length nn = n) by (unfold nn; now rewrite map_length, seq_length).
  assert (RV : reachable nonzero (CScalar nn cm) nv) by (split; [cbn; unfold nonzero; lia|]; exists nv, []; split; [reflexivity|]; split; [constructor|reflexivity]).
  assert (DV : dim nv = n) by (unfold dim, nv, rv_scalar; cbn; exact Ln).
  assert (S1 : scales n nv) by (apply (reachable_scales nonzero _ nv n (or_introl eq_refl) RV DV)).
  assert (CS : forall i, (i < n)%nat -> coord nv i == coord cv' i + 1 / inject_Z (2 ^ (kk + 2 + Z.of_nat i * (K + 2)))).
  { intros i Hi. rewrite <- (pow_ratio (Z.of_nat (n - 1 - i) * (K + 2)) (kk + (Z.of_nat n * (K + 2) - K)) (kk + 2 + Z.of_nat i * (K + 2))) by nia. rewrite <- DEN, <- NU by auto.
    assert (CV : coord cv' i == inject_Z (nth i cw 0%Z) / inject_Z cs) by (rewrite (SC i Hi); field; apply inj_nz; lia). rewrite CV.
    unfold coord, num_at, den_at, nv, rv_scalar. cbn [enumerator denominator]. rewrite (nth_indep _ 1%Z cm) by (rewrite repeat_length; lia). rewrite nth_repeat. unfold nn. rewrite nth_map_seq by auto.
    replace (cm / cs)%Z with ka by (rewrite Hka; symmetry; apply Z.div_mul; lia). replace (cm / den)%Z with kb by (rewrite Hkb; symmetry; apply Z.div_mul; lia).
    rewrite inject_Z_plus, !inject_Z_mult.
    assert (Q1 : inject_Z cm == inject_Z ka * inject_Z cs) by (rewrite <- inject_Z_mult; now rewrite Hka at 1). assert (Q2 : inject_Z cm == inject_Z kb * inject_Z den) by (rewrite <- inject_Z_mult; now rewrite Hkb at 1).
    assert (ka <> 0)%Z by (intros ->; lia). assert (kb <> 0)%Z by (intros ->; lia).
    unfold Qdiv. rewrite Qmult_plus_distr_l. apply Qplus_comp.
    - rewrite Q1. field. split; apply inj_nz; lia.
    - rewrite Q2. field. split; apply inj_nz; lia. }
  assert (EPS : forall i, (i < n)%nat -> 0 < 1 / inject_Z (2 ^ (kk + 2 + Z.of_nat i * (K + 2))) /\ 1 / inject_Z (2 ^ (kk + 2 + Z.of_nat i * (K + 2))) <= 1 / inject_Z (2 ^ (kk + 2))).
  { intros i Hi. assert (P1 : 0 < inject_Z (2 ^ (kk + 2 + Z.of_nat i * (K + 2)))) by (apply pow_inj_pos; nia). assert (P2 : 0 < inject_Z (2 ^ (kk + 2))) by (apply pow_inj_pos; lia). split; [apply Qlt_shift_div_l; auto; lra|].
    apply Qle_shift_div_r; auto. unfold Qdiv. rewrite Qmult_1_l. apply (Qmult_le_r _ _ _ P2). rewrite Qmult_1_l.
    setoid_replace (/ inject_Z (2 ^ (kk + 2)) * inject_Z (2 ^ (kk + 2 + Z.of_nat i * (K + 2))) * inject_Z (2 ^ (kk + 2))) with (inject_Z (2 ^ (kk + 2 + Z.of_nat i * (K + 2)))) by (field; now apply q_nz).
    rewrite <- Zle_Qle. apply Z.pow_le_mono_r; nia. }
  set (e := 1 / inject_Z (2 ^ (kk + 1))). assert (PP : 0 < inject_Z (2 ^ (kk + 1))) by (apply pow_inj_pos; lia). assert (He : 0 < e) by (unfold e; apply Qlt_shift_div_l; auto; lra).
  assert (E2e : 1 / inject_Z (2 ^ (kk + 2)) == e * (1 # 2)). { unfold e. replace (kk + 2)%Z with (kk + 1 + 1)%Z by ring. rewrite (Z.pow_add_r 2 (kk + 1) 1) by lia. rewrite inject_Z_mult. change (inject_Z (2 ^ 1)) with 2. field. now apply q_nz. }
  assert (DEL : forall i, (i < n)%nat -> - e <= coord nv i - coord cv i <= e).
  { intros i Hi. rewrite (CS i Hi). destruct (CO i Hi) as (a & _ & A1 & A2). fold e in A2. destruct (EPS i Hi) as [B1 B2]. rewrite E2e in B2. lra. }
  assert (NR : near n c v nv).
  { intros i Hi. cbv zeta. set (s := (Z.abs (det n (ent (s_rays c))) / nth i (s_divs c) 0)%Z). pose proof (PH i Hi) as P0. fold s in P0. pose proof (i_scpos n Hn c OK i Hi) as SP. fold s in SP. set (l := Qfloor (inject_Z s * phi n c (coord v) i)) in *.
    assert (B : - (e * inject_Z (s * zsum n (fun k => Z.abs (ent (s_facets c) i k)))) <= inject_Z s * phi n c (coord nv) i - inject_Z s * phi n c (coord cv) i <= e * inject_Z (s * zsum n (fun k => Z.abs (ent (s_facets c) i k)))).
    { pose proof (dot_bound n (fun k => coord nv k - coord cv k) (ent (s_facets c) i) e (Qlt_le_weak _ _ He) DEL) as DB. cbv beta in DB. change (sumq n (fun k => (coord nv k - coord cv k) * inject_Z (ent (s_facets c) i k))) with (phi n c (fun k => coord nv k - coord cv k) i) in DB. rewrite phi_sub in DB.
      assert (SQ : 0 < inject_Z s) by (change 0 with (inject_Z 0); now rewrite <- Zlt_Qlt). rewrite inject_Z_mult. set (ph1 := phi n c (coord nv) i) in *. set (ph2 := phi n c (coord cv) i) in *. set (Y := inject_Z (zsum n (fun k => Z.abs (ent (s_facets c) i k)))) in *. clearbody ph1 ph2 Y. set (S0 := inject_Z s) in *. clearbody S0. clear -DB SQ. nra. }
    pose proof (NB i Hi) as NBi. fold s in NBi. rewrite Zle_Qle in NBi.
    assert (Q4 : e * inject_Z N < 1 # 4).
    { assert (HN2 : inject_Z N * 2 < inject_Z (2 ^ kk)) by (change 2 with (inject_Z 2) at 1; rewrite <- inject_Z_mult, <- Zlt_Qlt; lia). unfold e. rewrite Z.pow_add_r by lia. rewrite inject_Z_mult. change (inject_Z (2 ^ 1)) with 2. pose proof (pow_inj_pos kk K0) as PK.
      setoid_replace (1 / (inject_Z (2 ^ kk) * 2) * inject_Z N) with (inject_Z N / (inject_Z (2 ^ kk) * 2)) by (field; now apply q_nz). apply Qlt_shift_div_r; lra. }
    assert (QQ : e * inject_Z (s * zsum n (fun k => Z.abs (ent (s_facets c) i k))) < 1 # 4).
    { eapply Qle_lt_trans; [|exact Q4]. rewrite !(Qmult_comm e). apply Qmult_le_compat_r; [exact NBi|now apply Qlt_le_weak]. }
    rewrite P0 in B. rewrite inject_Z_plus. change (inject_Z 1) with 1. split; lra. }
  exists nv, kk. rewrite (equivalent_ok n c OK v v SVv SVv) by auto. cbn [bind]. rewrite (equivalent_ok n c OK v nv SVv S1) by (intros; now apply (near_floor n Hn c OK)). cbn [bind].
  destruct (irrational_iff n c OK nv S1) as (b & Eb & Ib). rewrite Eb. cbn [bind]. rewrite (proj2 Ib) by (now apply (near_irrational n Hn c v nv)).
  split; auto. split; auto. split; [|split; [exact DV|split; [exact NR|]]].
  - replace (enumerator nv) with nn by reflexivity. replace (nth 0 (denominator nv) 0%Z) with cm; [exact RV|]. unfold nv, rv_scalar. cbn [denominator]. rewrite (nth_indep _ 0%Z cm) by (rewrite repeat_length; lia). now rewrite nth_repeat.
  - intros i Hi. destruct (CO i Hi) as (a & Ha & _). exists a. rewrite (CS i Hi), Ha. reflexivity.
Qed.
End Irr2.
