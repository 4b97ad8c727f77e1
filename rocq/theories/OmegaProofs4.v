(** The determinant of a reduced basis, and the coefficients of short vectors. *)
From Coq Require Import QArith Qabs Qpower Qround Qfield Lqa.
From Verif Require Import Common ZMat Hermite HermiteProofs Det DetProofs Piped PipedSpec PipedProofs PipedProofs3 OmegaSpec OmegaProofs3.
Open Scope Z_scope.

Fixpoint zprod (n : nat) (f : nat -> Z) : Z := match n with O => 1 | S m => zprod m f * f m end.
Lemma zprod_head n f : zprod (S n) f = f 0%nat * zprod n (fun i => f (S i)).
Proof. induction n as [|n IH]; [cbn [zprod]; ring|]. cbn [zprod] in *. rewrite IH. ring. Qed.
Lemma zprod_ext n f h : (forall i, (i < n)%nat -> f i = h i) -> zprod n f = zprod n h.
Proof. induction n as [|n IH]; intros H; cbn [zprod]; [reflexivity|]. rewrite IH by (intros; apply H; lia). rewrite H by lia. reflexivity. Qed.
Lemma zprod_const n c : zprod n (fun _ => c) = c ^ Z.of_nat n.
Proof. induction n as [|n IH]; [reflexivity|]. cbn [zprod]. rewrite IH, Nat2Z.inj_succ, Z.pow_succ_r by lia. ring. Qed.
Lemma det_lower n : forall A, (forall i j, (i < j)%nat -> (j < n)%nat -> A i j = 0) -> det n A = zprod n (fun i => A i i).
Proof.
  induction n as [|n IH]; intros A L; [reflexivity|]. cbn [det]. rewrite (zsum_single (S n) _ 0); [|lia|intros j Hj N; rewrite (L 0%nat j) by lia; ring].
  rewrite (IH (minor A 0 0)) by (intros i j H1 H2; apply (L (S i) (S j)); lia). rewrite zprod_head. change (sgn_of 0) with 1. rewrite Z.mul_1_l. f_equal.
Qed.
Lemma det_scale n c A : det n (fun i j => c * A i j) = c ^ Z.of_nat n * det n A.
Proof.
  rewrite (det_ext n _ (mmul n (fun i j => c * delta i j) A)).
  - rewrite det_mul, det_lower by (intros i j Hij _; rewrite delta_neq by lia; ring). rewrite (zprod_ext n _ (fun _ => c)) by (intros i _; rewrite delta_eq; ring). now rewrite zprod_const.
  - intros i j Hi Hj. unfold mmul. rewrite (zsum_single n _ i Hi) by (intros k _ N; rewrite delta_neq by auto; ring). rewrite delta_eq. ring.
Qed.
(** common denominators *)
Definition integral_at (N : Z) (q : Q) : Prop := (inject_Z N * q == inject_Z (Qfloor (inject_Z N * q)))%Q.
Lemma integral_of N q z : (inject_Z N * q == inject_Z z)%Q -> integral_at N q.
Proof. intros H. unfold integral_at. rewrite H at 2. rewrite Qfloor_Z. exact H. Qed.
Lemma integral_mul N K q : integral_at N q -> integral_at (N * K) q.
Proof. intros H. unfold integral_at in H. apply (integral_of _ _ (Qfloor (inject_Z N * q) * K)). rewrite !inject_Z_mult, <- H. ring. Qed.
Lemma common1 m (f : nat -> Q) : exists N, 0 < N /\ forall i, (i < m)%nat -> integral_at N (f i).
Proof.
  induction m as [|m (N & P & H)]; [exists 1; split; [lia|lia]|]. exists (N * Z.pos (Qden (f m))). split; [lia|]. intros i Hi. destruct (Nat.eq_dec i m) as [->|X]; [|apply integral_mul, H; lia].
  rewrite Z.mul_comm. apply integral_mul. apply (integral_of _ _ (Qnum (f m))). destruct (f m) as [a b]. unfold Qeq, Qmult, inject_Z. cbn [Qnum Qden]. lia.
Qed.
Lemma common2 r m (f : nat -> nat -> Q) : exists N, 0 < N /\ forall i j, (i < r)%nat -> (j < m)%nat -> integral_at N (f i j).
Proof.
  induction r as [|r (N & P & H)]; [exists 1; split; [lia|lia]|]. destruct (common1 m (f r)) as (K & PK & HK). exists (N * K). split; [lia|]. intros i j Hi Hj. destruct (Nat.eq_dec i r) as [->|X]; [rewrite Z.mul_comm; now apply integral_mul, HK|apply integral_mul, H; lia].
Qed.
Lemma inj_sum n f : (inject_Z (zsum n f) == sumq n (fun i => inject_Z (f i)))%Q.
Proof. symmetry. apply sumq_inj. Qed.
Fixpoint tri (n : nat) : nat := match n with O => O | S m => (tri m + m)%nat end.
Lemma tri_double n : (2 * tri n = n * (n - 1))%nat.
Proof. induction n as [|n IH]; [reflexivity|]. cbn [tri]. destruct n; [reflexivity|]. nia. Qed.

Theorem reduced_det n L : (0 < n)%nat -> lll_reduced n L ->
  let q := zsum n (fun k => vat L 0 k * vat L 0 k) in 3 ^ Z.of_nat (tri n) * q ^ Z.of_nat n <= 4 ^ Z.of_nat (tri n) * (det n (ent L) * det n (ent L)).
Proof.
  intros Hn (g & mu & EL & OR & SR & LO) q. change (forall i j, (i < j)%nat -> (j < n)%nat -> (dot n g i j == 0)%Q) in OR. change (forall i, (S i < n)%nat -> (dot n g i i <= dot n g (S i) (S i) + mu (S i) i * mu (S i) i * dot n g i i)%Q) in LO.
  destruct (common2 n n g) as (N1 & P1 & H1). destruct (common2 n n (M mu)) as (N2 & P2 & H2). set (N := N1 * N2). assert (PN : 0 < N) by (unfold N; lia).
  set (G := fun l k => Qfloor (inject_Z N * g l k)). set (T := fun i l => Qfloor (inject_Z N * M mu i l)).
  assert (HG : forall l k, (l < n)%nat -> (k < n)%nat -> (inject_Z N * g l k == inject_Z (G l k))%Q) by (intros l k Hl Hk; unfold N; apply integral_mul; now apply H1).
  assert (HT : forall i l, (i < n)%nat -> (l < n)%nat -> (inject_Z N * M mu i l == inject_Z (T i l))%Q) by (intros i l Hi Hl; unfold N; rewrite (Z.mul_comm N1); unfold T, N; rewrite (Z.mul_comm N1); apply integral_mul; now apply H2).
  assert (inj : forall a b : Z, (inject_Z a == inject_Z b)%Q -> a = b) by (intros a b H; unfold Qeq, inject_Z in H; cbn in H; lia).
  assert (ET : meq n n (mmul n T G) (fun i k => N * N * ent L i k)).
  { intros i k Hi Hk. apply inj. unfold mmul. rewrite inj_sum, !inject_Z_mult. change (ent L i k) with (vat L i k). rewrite (row_M n L g mu EL i k Hi Hk). rewrite <- sumq_scal. apply sumq_ext. intros l Hl. rewrite inject_Z_mult, <- HT, <- HG by auto. ring. }
  assert (DT : det n T = N ^ Z.of_nat n).
  { rewrite det_lower.
    - rewrite (zprod_ext n _ (fun _ => N)) by (intros i Hi; unfold T; rewrite M_diag, Qmult_1_r; apply Qfloor_Z). apply zprod_const.
    - intros i j Hij Hj. unfold T. rewrite M_up by auto. rewrite Qmult_0_r. reflexivity. }
  set (e := fun i => zsum n (fun k => G i k * G i k)).
  assert (HE : forall i, (i < n)%nat -> (inject_Z (e i) == inject_Z (N * N) * dot n g i i)%Q).
  { intros i Hi. unfold e, dot. rewrite inj_sum, <- sumq_scal. apply sumq_ext. intros k Hk. rewrite !inject_Z_mult, <- HG by auto. ring. }
  assert (EG : meq n n (mmul n G (fun a b => G b a)) (fun i j => e i * delta i j)).
  { intros i j Hi Hj. destruct (Nat.eq_dec i j) as [->|X]; [rewrite delta_eq; unfold mmul, e; ring|]. rewrite delta_neq by auto. apply inj. unfold mmul. rewrite inj_sum. rewrite (sumq_ext n _ (fun k => inject_Z (N * N) * (g i k * g j k))%Q) by (intros k Hk; rewrite !inject_Z_mult, <- !HG by auto; ring). rewrite sumq_scal. fold (dot n g i j).
    rewrite Z.mul_0_r. destruct (Nat.lt_ge_cases i j) as [Y|Y]; [rewrite OR by auto|rewrite (dot_sym n g i j), OR by lia]; ring. }
  assert (DG : det n G * det n G = zprod n e).
  { rewrite <- (det_tr n G) at 2. rewrite <- det_mul, (det_ext n _ _ EG), det_lower by (intros i j Hij _; rewrite delta_neq by lia; ring). apply zprod_ext. intros i _. rewrite delta_eq. ring. }
  assert (DL : N ^ Z.of_nat n * det n G = N ^ Z.of_nat n * (N ^ Z.of_nat n * det n (ent L))).
  { rewrite <- DT at 1. rewrite <- det_mul, (det_ext n _ _ ET), det_scale, Z.pow_mul_l. ring. }
  assert (PP : 0 < N ^ Z.of_nat n) by (apply Z.pow_pos_nonneg; lia). apply Z.mul_reg_l in DL; [|lia].
  assert (LV : forall i, (S i < n)%nat -> 3 * e i <= 4 * e (S i)).
  { intros i Hi. pose proof (lovasz n g mu SR LO i Hi) as X. assert (Y : (inject_Z (3 * e i) <= inject_Z (4 * e (S i)))%Q); [|rewrite <- Zle_Qle in Y; exact Y]. rewrite !inject_Z_mult, !HE by lia. assert (P : (0 < inject_Z (N * N))%Q) by (unfold Qlt; cbn; lia). change (inject_Z 3) with 3%Q. change (inject_Z 4) with 4%Q. nra. }
  assert (E0 : forall i, 0 <= e i) by (intros i; unfold e; clear; generalize n; intros m; induction m as [|m IH]; cbn [zsum]; [lia|nia]).
  assert (CH : forall i, (i < n)%nat -> 3 ^ Z.of_nat i * e 0%nat <= 4 ^ Z.of_nat i * e i).
  { induction i as [|i IH]; intros Hi; [cbn; lia|]. specialize (IH ltac:(lia)). specialize (LV i Hi). rewrite Nat2Z.inj_succ, !Z.pow_succ_r by lia. assert (0 <= 4 ^ Z.of_nat i) by (apply Z.pow_nonneg; lia). nia. }
  assert (PR : forall m, (m <= n)%nat -> 3 ^ Z.of_nat (tri m) * e 0%nat ^ Z.of_nat m <= 4 ^ Z.of_nat (tri m) * zprod m e /\ 0 <= zprod m e).
  { induction m as [|m IH]; intros Hm; [cbn; lia|]. destruct (IH ltac:(lia)) as [A B]. specialize (CH m Hm). cbn [tri zprod]. rewrite !Nat2Z.inj_add, !Z.pow_add_r, Nat2Z.inj_succ, Z.pow_succ_r by lia. pose proof (E0 m). pose proof (E0 0%nat). split; [|nia].
    replace (3 ^ Z.of_nat (tri m) * 3 ^ Z.of_nat m * (e 0%nat * e 0%nat ^ Z.of_nat m)) with ((3 ^ Z.of_nat (tri m) * e 0%nat ^ Z.of_nat m) * (3 ^ Z.of_nat m * e 0%nat)) by ring.
    replace (4 ^ Z.of_nat (tri m) * 4 ^ Z.of_nat m * (zprod m e * e m)) with ((4 ^ Z.of_nat (tri m) * zprod m e) * (4 ^ Z.of_nat m * e m)) by ring.
    apply Z.mul_le_mono_nonneg; auto; apply Z.mul_nonneg_nonneg; auto; apply Z.pow_nonneg; lia. }
  destruct (PR n (Nat.le_refl n)) as [A _].
  assert (EQ : e 0%nat = N * N * q).
  { apply inj. rewrite HE by auto. rewrite (inject_Z_mult (N * N) q). unfold q. rewrite inj_sum. unfold dot. apply Qmult_comp; [reflexivity|]. apply sumq_ext. intros k Hk. rewrite inject_Z_mult, (EL 0%nat k Hn Hk). cbn [sumq]. ring. }
  rewrite EQ, !Z.pow_mul_l, <- DG, DL in A. set (X := N ^ Z.of_nat n) in *. assert (PX : 0 < X * X) by nia. apply (Z.mul_le_mono_pos_l _ _ (X * X) PX).
  replace (X * X * (3 ^ Z.of_nat (tri n) * q ^ Z.of_nat n)) with (3 ^ Z.of_nat (tri n) * (X * X * q ^ Z.of_nat n)) by ring. replace (X * X * (4 ^ Z.of_nat (tri n) * (det n (ent L) * det n (ent L)))) with (4 ^ Z.of_nat (tri n) * (X * det n (ent L) * (X * det n (ent L)))) by ring. exact A.
Qed.

(** Coefficients of short vectors, up to dimension 5. *)
Theorem small_coefficients n L (c : nat -> Z) D : (0 < n)%nat -> (n <= 5)%nat -> lll_reduced n L -> 0 < D -> D * D <= zsum n (fun k => vat L 0 k * vat L 0 k) ->
  (forall k, (k < n)%nat -> 2 * Z.abs (zsum n (fun i => c i * vat L i k)) <= D) ->
  forall l, (l < n)%nat -> Z.abs (c l) <= match l with O => 5 | _ => 3 end.
Proof.
  intros Hn H5 (g & mu & EL & OR & SR & LO) PD HQ HW. change (forall i j, (i < j)%nat -> (j < n)%nat -> (dot n g i j == 0)%Q) in OR. change (forall i, (S i < n)%nat -> (dot n g i i <= dot n g (S i) (S i) + mu (S i) i * mu (S i) i * dot n g i i)%Q) in LO.
  set (w := fun k => inject_Z (zsum n (fun i => c i * vat L i k))).
  assert (EW : forall k, (k < n)%nat -> (w k == sumq n (fun i => inject_Z (c i) * inject_Z (vat L i k)))%Q) by (intros k Hk; unfold w; rewrite inj_sum; apply sumq_ext; intros i _; rewrite inject_Z_mult; reflexivity).
  pose proof (w_norm n L g mu EL OR c w EW) as WN. set (x := co n mu c) in *. set (dq := (inject_Z D * inject_Z D)%Q).
  assert (PQ : (0 < dq)%Q) by (unfold dq; rewrite <- inject_Z_mult; unfold Qlt; cbn; nia).
  assert (D0 : (dq <= dot n g 0 0)%Q).
  { unfold dq, dot. rewrite <- inject_Z_mult. rewrite Zle_Qle in HQ. rewrite inj_sum in HQ. rewrite (sumq_ext n (fun k => g 0%nat k * g 0%nat k)%Q (fun k => inject_Z (vat L 0 k * vat L 0 k))); [exact HQ|]. intros k Hk. rewrite inject_Z_mult, (EL 0%nat k Hn Hk). cbn [sumq]. ring. }
  assert (W5 : (4 * sumq n (fun k => w k * w k) <= 5 * dq)%Q).
  { rewrite <- sumq_scal. apply Qle_trans with (sumq n (fun _ => dq)).
    - apply sumq_le. intros k Hk. specialize (HW k Hk). unfold w, dq. rewrite <- !inject_Z_mult. change 4%Q with (inject_Z 4). rewrite <- inject_Z_mult, <- Zle_Qle. nia.
    - rewrite sumq_const. assert ((inject_Z (Z.of_nat n) <= 5)%Q) by (change 5%Q with (inject_Z 5); rewrite <- Zle_Qle; lia). nra. }
  assert (XB : forall l, (l < n)%nat -> (4 * (x l * x l) * (3 # 4) ^ Z.of_nat l <= 5)%Q).
  { intros l Hl. assert (A : (x l * x l * dot n g l l <= sumq n (fun k => w k * w k))%Q).
    { rewrite WN. apply (sumq_ge_term n (fun l => x l * x l * dot n g l l)%Q l); [|exact Hl]. intros k _. pose proof (dot_pos n g l). pose proof (dot_pos n g k). nra. }
    pose proof (dot_chain n g mu SR LO l Hl) as B. set (p := ((3 # 4) ^ Z.of_nat l)%Q) in *. assert (Pp : (0 <= p)%Q) by (apply Qpower_pos; discriminate).
    assert (B2 : (p * dq <= dot n g l l)%Q) by nra. assert (C : (x l * x l * (p * dq) <= x l * x l * dot n g l l)%Q) by (rewrite (Qmult_comm (x l * x l)), (Qmult_comm (x l * x l) (dot n g l l)); apply Qmult_le_compat_r; [exact B2|nra]).
    apply (Qmult_le_r _ _ dq PQ). lra. }
  set (S := fun l => zsum n (fun i => if (l <? i)%nat then Z.abs (c i) else 0)).
  assert (TB : forall l, (l < n)%nat -> (inject_Z (Z.abs (c l)) <= Qabs (x l) + (1 # 2) * inject_Z (S l))%Q).
  { intros l Hl. pose proof (co_tail n mu c l Hl) as E. fold x in E. fold (x l) in E. set (t := sumq n _) in E.
    assert (T2 : (- ((1 # 2) * inject_Z (S l)) <= t <= (1 # 2) * inject_Z (S l))%Q).
    { assert (EI : forall i, (i < n)%nat -> (- ((1 # 2) * inject_Z (if (l <? i)%nat then Z.abs (c i) else 0)) <= (if (l <? i)%nat then inject_Z (c i) * mu i l else 0) <= (1 # 2) * inject_Z (if (l <? i)%nat then Z.abs (c i) else 0))%Q).
      { intros i Hi. destruct (Nat.ltb_spec l i) as [X|X]; [|change (inject_Z 0) with 0%Q; lra]. pose proof (SR i l X Hi) as Y. destruct (Z_le_gt_dec 0 (c i)) as [Z0|Z0].
        - rewrite Z.abs_eq by auto. assert ((0 <= inject_Z (c i))%Q) by (change 0%Q with (inject_Z 0); rewrite <- Zle_Qle; lia). nra.
        - rewrite Z.abs_neq by lia. rewrite inject_Z_opp. assert ((inject_Z (c i) <= 0)%Q) by (change 0%Q with (inject_Z 0); rewrite <- Zle_Qle; lia). nra. }
      unfold S, t. rewrite inj_sum. split.
      - rewrite <- sumq_scal. setoid_replace (- sumq n (fun i => (1 # 2) * inject_Z (if (l <? i)%nat then Z.abs (c i) else 0)))%Q with (sumq n (fun i => -1 * ((1 # 2) * inject_Z (if (l <? i)%nat then Z.abs (c i) else 0)))%Q) by (etransitivity; [|symmetry; apply (sumq_scal n (-1))]; ring). apply sumq_le. intros i Hi. destruct (EI i Hi) as [A _]. setoid_replace (-1 * ((1 # 2) * inject_Z (if (l <? i)%nat then Z.abs (c i) else 0)))%Q with (- ((1 # 2) * inject_Z (if (l <? i)%nat then Z.abs (c i) else 0)))%Q by ring. exact A.
      - rewrite <- sumq_scal. apply sumq_le. intros i Hi. apply (EI i Hi). }
    clearbody t. assert (EC : (inject_Z (c l) == x l - t)%Q) by (rewrite E; ring). pose proof (Qle_Qabs (x l)) as A1. pose proof (Qle_Qabs (- x l)) as A2. rewrite Qabs_opp in A2.
    destruct (Z_le_gt_dec 0 (c l)) as [Z0|Z0]; [rewrite Z.abs_eq by auto; lra|]. rewrite Z.abs_neq by lia. rewrite inject_Z_opp. lra. }
  assert (STEP : forall l s b, (l < n)%nat -> S l <= s -> s <= 2 * b + 1 -> (5 < (inject_Z (2 * (b + 1) - s)) * (inject_Z (2 * (b + 1) - s)) * (3 # 4) ^ Z.of_nat l)%Q -> Z.abs (c l) <= b).
  { intros l s b Hl Hs Hb Big. destruct (Z_le_gt_dec (Z.abs (c l)) b) as [|X]; [auto|exfalso]. specialize (TB l Hl). specialize (XB l Hl).
    assert (Y : (inject_Z (2 * (b + 1) - s) <= 2 * Qabs (x l))%Q).
    { apply Qle_trans with (inject_Z (2 * Z.abs (c l) - S l)); [rewrite <- Zle_Qle; lia|]. unfold Zminus. rewrite inject_Z_plus, inject_Z_opp, inject_Z_mult. change (inject_Z 2) with 2%Q. lra. }
    assert (Z0 : (0 < inject_Z (2 * (b + 1) - s))%Q) by (change 0%Q with (inject_Z 0); rewrite <- Zlt_Qlt; lia). set (u := inject_Z (2 * (b + 1) - s)) in *. set (p := ((3 # 4) ^ Z.of_nat l)%Q) in *. assert (Pp : (0 <= p)%Q) by (apply Qpower_pos; discriminate).
    assert (XX : (Qabs (x l) * Qabs (x l) == x l * x l)%Q) by (rewrite <- Qabs_Qmult; apply Qabs_pos; nra).
    assert (UU : (u * u <= 4 * (x l * x l))%Q) by (rewrite <- XX; nra). assert ((u * u * p <= 4 * (x l * x l) * p)%Q) by (apply Qmult_le_compat_r; auto). lra. }
  assert (SN : forall l, S l = S (Datatypes.S l) + (if (Datatypes.S l <? n)%nat then Z.abs (c (Datatypes.S l)) else 0)).
  { intros l. unfold S. rewrite (zsum_ext n (fun i => if (l <? i)%nat then Z.abs (c i) else 0) (fun i => (if (Datatypes.S l <? i)%nat then Z.abs (c i) else 0) + (if (i =? Datatypes.S l)%nat then Z.abs (c (Datatypes.S l)) else 0))).
    - rewrite zsum_add. f_equal. destruct (Nat.ltb_spec (Datatypes.S l) n) as [X|X]; [rewrite (zsum_single n _ _ X) by (intros i _ N; now rewrite (proj2 (Nat.eqb_neq _ _) N)); now rewrite Nat.eqb_refl|]. apply zsum_zero. intros i Hi. now rewrite (proj2 (Nat.eqb_neq i (Datatypes.S l))) by lia.
    - intros i Hi. destruct (Nat.eqb_spec i (Datatypes.S l)) as [->|N]; [rewrite (proj2 (Nat.ltb_lt l (Datatypes.S l))) by lia; rewrite Nat.ltb_irrefl; lia|]. destruct (Nat.ltb_spec l i), (Nat.ltb_spec (Datatypes.S l) i); lia. }
  assert (S4 : S 4%nat <= 0) by (unfold S; rewrite zsum_zero; [lia|]; intros i Hi; destruct (Nat.ltb_spec 4 i); [lia|reflexivity]).
  assert (C4 : (4 < n)%nat -> Z.abs (c 4%nat) <= 1) by (intros X; apply (STEP 4%nat 0 1 X S4); [lia|reflexivity]).
  assert (S3 : S 3%nat <= 1) by (rewrite SN; destruct (Nat.ltb_spec 4 n) as [X|X]; [specialize (C4 X); lia|lia]).
  assert (C3 : (3 < n)%nat -> Z.abs (c 3%nat) <= 2) by (intros X; apply (STEP 3%nat 1 2 X S3); [lia|reflexivity]).
  assert (S2 : S 2%nat <= 3) by (rewrite SN; destruct (Nat.ltb_spec 3 n) as [X|X]; [specialize (C3 X); lia|lia]).
  assert (C2 : (2 < n)%nat -> Z.abs (c 2%nat) <= 2) by (intros X; apply (STEP 2%nat 3 2 X S2); [lia|reflexivity]).
  assert (S1 : S 1%nat <= 5) by (rewrite SN; destruct (Nat.ltb_spec 2 n) as [X|X]; [specialize (C2 X); lia|lia]).
  assert (C1 : (1 < n)%nat -> Z.abs (c 1%nat) <= 3) by (intros X; apply (STEP 1%nat 5 3 X S1); [lia|reflexivity]).
  assert (S0 : S 0%nat <= 8) by (rewrite SN; destruct (Nat.ltb_spec 1 n) as [X|X]; [specialize (C1 X); lia|lia]).
  assert (C0 : Z.abs (c 0%nat) <= 5) by (apply (STEP 0%nat 8 5 Hn S0); [lia|reflexivity]).
  intros l Hl. destruct l as [|[|[|[|[|l]]]]]; [exact C0|exact (C1 Hl)| | | |lia]; [specialize (C2 Hl)|specialize (C3 Hl)|specialize (C4 Hl)]; lia.
Qed.
