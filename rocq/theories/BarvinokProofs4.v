(** Contracts that can be met; barvinok_Single. *)
From Coq Require Import QArith Qfield Lqa.
From Verif Require Import Common ZMat Hermite HermiteProofs Det DetProofs RatVec RatVecSpec RatVecProofs Piped PipedSpec PipedProofs PipedProofs2 PipedProofs3 PipedProofs4 ConeSpec ConeProofs Irrational IrrationalProofs IrrationalProofs2 IrrationalProofs3 Barvinok BarvinokSpec BarvinokProofs BarvinokProofs2 BarvinokProofs3.
Open Scope Z_scope.

(** A relation by Cramer's rule. *)
Definition cramer_ker (l : list (list Z)) : list Z :=
  match l with [] => [] | z :: rays => let n := length rays in - det n (ent rays) :: map (fun i => det n (ent (upd rays i z))) (seq 0 n) end.
Lemma upd_det n rays z i : (i < n)%nat -> length rays = n -> length z = n -> det n (ent (upd rays i z)) = zsum n (fun j => nth j z 0 * adj n (ent rays) j i).
Proof.
  intros Hi L Lz. rewrite (det_ext n _ (setrow (ent rays) i (fun j => nth j z 0))).
  - rewrite (det_expand n _ i Hi). apply zsum_ext. intros j Hj. rewrite setrow_at. f_equal. unfold adj. f_equal. apply det_ext. intros a b _ _. unfold minor. apply setrow_ne, skip_neq.
  - intros a b Ha Hb. unfold ent. rewrite upd_nth_rows by lia. destruct (Nat.eqb_spec a i) as [->|N]; [now rewrite setrow_at|]. now rewrite setrow_ne.
Qed.
Lemma cramer_ker_ok : relation_contract cramer_ker.
Proof.
  intros n rays z NV LI Lz r. pose proof NV as [L F]. pose proof (indep_det n rays LI) as D0. unfold r, cramer_ker. rewrite L. split.
  - exists 0%nat. split; [lia|]. cbn [nth]. lia.
  - intros j Hj. rewrite sumz_zsum. replace (n + 1)%nat with (S n) by lia. rewrite zsum_head. cbn [nth]. change (vat (z :: rays) 0 j) with (nth j z 0).
    rewrite (zsum_ext n _ (fun i => zsum n (fun k => nth k z 0 * adj n (ent rays) k i * ent rays i j))).
    + rewrite zsum_swap. rewrite (zsum_ext n _ (fun k => nth k z 0 * (det n (ent rays) * delta k j))).
      * rewrite (zsum_single n _ j Hj) by (intros k Hk N; rewrite delta_neq by auto; ring). rewrite delta_eq. ring.
      * intros k Hk. rewrite <- (adj_l n (ent rays) k j Hk Hj). unfold mmul. rewrite <- zsum_scal. apply zsum_ext. intros; ring.
    + intros i Hi. rewrite nth_map_seq by auto. rewrite (upd_det n) by auto. rewrite Z.mul_comm, <- zsum_scal. apply zsum_ext. intros k Hk. unfold vat, ent. cbn [nth]. ring.
Qed.
(** A short vector: a coordinate vector reduced modulo the rays. *)
Definition short_omega (l : nat) (rays : list (list Z)) : list Z :=
  let n := length rays in let d := det n (ent rays) in
  match find (fun j => existsb (fun i => negb (adj n (ent rays) j i mod d =? 0)) (seq 0 n)) (seq 0 n) with
  | None => map (fun k => 1) (seq 0 n)
  | Some j => map (fun k => delta j k - zsum n (fun i => adj n (ent rays) j i / d * ent rays i k)) (seq 0 n)
  end.
Lemma short_omega_dets n rays j i : n_vectors n rays -> det n (ent rays) <> 0 -> (j < n)%nat -> (i < n)%nat ->
  det n (ent (upd rays i (map (fun k => delta j k - zsum n (fun i => adj n (ent rays) j i / det n (ent rays) * ent rays i k)) (seq 0 n)))) = adj n (ent rays) j i mod det n (ent rays).
Proof.
  intros [L F] D0 Hj Hi. set (A := ent rays) in *. set (d := det n A) in *. rewrite (upd_det n) by (auto; now rewrite map_length, seq_length). fold A.
  rewrite (zsum_ext n _ (fun k => delta j k * adj n A k i + -1 * zsum n (fun t => adj n A j t / d * (A t k * adj n A k i)))).
  - rewrite zsum_add, zsum_scal. rewrite (zsum_single n (fun k => delta j k * adj n A k i) j Hj) by (intros k Hk N; rewrite delta_neq by auto; ring). rewrite delta_eq.
    rewrite zsum_swap. rewrite (zsum_ext n _ (fun t => adj n A j t / d * (d * delta t i))).
    + rewrite (zsum_single n _ i Hi) by (intros t Ht N; rewrite delta_neq by auto; ring). rewrite delta_eq. pose proof (Z.div_mod (adj n A j i) d D0). lia.
    + intros t Ht. pose proof (adj_r n A t i Ht Hi) as AR. fold d in AR. rewrite <- AR. unfold mmul. now rewrite <- zsum_scal.
  - intros k Hk. rewrite nth_map_seq by auto. rewrite Z.mul_sub_distr_r. rewrite (Z.mul_comm (zsum n _) (adj n A k i)), <- zsum_scal. rewrite (zsum_ext n (fun i0 => adj n A k i * (adj n A j i0 / d * A i0 k)) (fun t => adj n A j t / d * (A t k * adj n A k i))) by (intros; ring). ring.
Qed.
Lemma short_some n rays : det n (ent rays) <> 0 -> length rays = n -> 1 < Z.abs (det n (ent rays)) -> exists j, (j < n)%nat /\ find (fun j => existsb (fun i => negb (adj n (ent rays) j i mod det n (ent rays) =? 0)) (seq 0 n)) (seq 0 n) = Some j.
Proof.
  intros D0 L D1. set (A := ent rays) in *. set (d := det n A) in *. destruct (find _ _) as [j|] eqn:E.
  - exists j. split; auto. apply find_some in E as [E _]. apply in_seq in E. lia.
  - exfalso. pose proof (find_none _ _ E) as H. assert (DV : forall j i, (j < n)%nat -> (i < n)%nat -> adj n A j i = d * (adj n A j i / d)).
    { intros j i Hj Hi. apply Z.div_exact; auto. specialize (H j ltac:(apply in_seq; lia)). cbv beta in H. destruct (Z.eqb_spec (adj n A j i mod d) 0) as [|N]; auto. assert (X : existsb (fun i => negb (adj n A j i mod d =? 0)) (seq 0 n) = true); [|congruence]. apply existsb_exists. exists i. split; [apply in_seq; lia|]. now apply negb_true_iff, Z.eqb_neq. }
    assert (P : d * det n (fun j i => adj n A j i / d) = 1).
    { unfold d at 1. rewrite <- det_mul. rewrite <- (det_id n). apply det_ext. intros i j Hi Hj. apply (Z.mul_reg_l _ _ d D0). pose proof (adj_r n A i j Hi Hj) as AR. fold d in AR. rewrite <- AR. unfold mmul. rewrite <- zsum_scal. apply zsum_ext. intros k Hk. rewrite (DV k j Hk Hj) at 2. ring. }
    assert (d = 1 \/ d = -1) by (apply Z.eq_mul_1 with (m := det n (fun j i => adj n A j i / d)); exact P). lia.
Qed.
Lemma short_omega_ok : omega_contract short_omega.
Proof.
  intros n l rays Hn NV LI. pose proof NV as [L F]. pose proof (indep_det n rays LI) as D0. unfold short_omega. rewrite L. destruct (find _ _) as [j|] eqn:E.
  - split; [now rewrite map_length, seq_length|]. set (z := map _ _). apply find_some in E as [Hj EX]. apply in_seq in Hj. apply existsb_exists in EX as (i & Hi & Ei). apply in_seq in Hi. apply negb_true_iff, Z.eqb_neq in Ei.
    destruct (existsb (fun k => negb (nth k z 0 =? 0)) (seq 0 n)) eqn:X.
    + apply existsb_exists in X as (k & Hk & Ek). apply in_seq in Hk. exists k. split; [lia|]. now apply negb_true_iff, Z.eqb_neq in Ek.
    + exfalso. apply Ei. rewrite <- (short_omega_dets n rays j i NV D0) by lia. fold z. rewrite (upd_det n) by (try lia; unfold z; now rewrite map_length, seq_length). apply zsum_zero. intros k Hk. destruct (Z.eqb_spec (nth k z 0) 0) as [->|N]; [ring|]. assert (Y : existsb (fun k => negb (nth k z 0 =? 0)) (seq 0 n) = true); [|congruence]. apply existsb_exists. exists k. split; [apply in_seq; lia|]. now apply negb_true_iff, Z.eqb_neq.
  - split; [now rewrite map_length, seq_length|]. exists 0%nat. split; auto. rewrite nth_map_seq by auto. lia.
Qed.
Lemma short_omega_lowers n rays : n_vectors n rays -> lin_indep n rays -> 1 < Z.abs (det n (vat rays)) -> lowers n rays (short_omega 2 rays).
Proof.
  intros NV LI D1 i Hi. pose proof NV as [L F]. pose proof (indep_det n rays LI) as D0. rewrite <- !ent_vat in *. rewrite <- upd_split by lia. unfold short_omega. rewrite L. destruct (short_some n rays D0 L D1) as (j & Hj & ->).
  rewrite (short_omega_dets n rays j i NV D0 Hj Hi). pose proof (Z.mod_bound_or (adj n (ent rays) j i) (det n (ent rays)) D0) as MB. change (vat rays) with (ent rays). lia.
Qed.
Lemma short_omega_decreasing n : decreasing n short_omega.
Proof. intros rays NV LI D1. right. now apply short_omega_lowers. Qed.
(** gcds *)
Lemma gcd_scale d l : forall a, fold_left Z.gcd (map (Z.mul d) l) (Z.abs d * a) = Z.abs d * fold_left Z.gcd l a.
Proof.
  induction l as [|y l IH]; intros a; cbn [map fold_left]; auto. rewrite <- IH. f_equal. rewrite <- (Z.gcd_abs_r _ (d * y)), Z.abs_mul, Z.gcd_mul_mono_l_nonneg by lia. f_equal. apply Z.gcd_abs_r.
Qed.
Lemma primitive_divides n r d m : length r = n -> (forall k, (forall j, (j < n)%nat -> (k | nth j r 0)) -> (k | 1)) -> (forall j, (j < n)%nat -> (m | d * nth j r 0)) -> (m | d).
Proof.
  intros L P H. set (g := fold_left Z.gcd r 0). assert (G : (g | 1)).
  { apply P. intros j Hj. apply (proj2 (proj1 (fold_gcd_div r 0 g) (Z.divide_refl g))). apply nth_In. lia. }
  assert (G1 : g = 1) by (apply Z.divide_1_r_nonneg; [apply fold_gcd_nonneg; lia|exact G]).
  apply Z.divide_abs_r. rewrite <- (Z.mul_1_r (Z.abs d)), <- G1. unfold g. rewrite <- gcd_scale. apply fold_gcd_div. split; [rewrite Z.mul_0_r; apply Z.divide_0_r|]. intros x Hx. apply in_map_iff in Hx as (y & <- & Hy). apply (In_nth _ _ 0) in Hy as (j & Hj & <-). apply H. lia.
Qed.
(** Exchanging rays and facets. *)
Definition rays_primitive (n : nat) (rays : list (list Z)) : Prop := forall i, (i < n)%nat -> forall m, (forall k, (k < n)%nat -> (m | vat rays i k)) -> (m | 1).
Lemma swap_full n c : cone_full n c -> rays_primitive n (s_rays c) -> cone_full n (swap_cone c).
Proof.
  intros FC PR. pose proof FC as [OK E2]. pose proof OK as (NV & ED & D0 & DU & DV). pose proof DU as (NF & LD & PA & PO & PF). split; [|cbn; exact ED].
  assert (SY : forall i j, (i < n)%nat -> (j < n)%nat -> sumz n (fun k => vat (s_facets c) i k * vat (s_rays c) j k) = if (i =? j)%nat then - nth j (s_divs c) 0 else 0).
  { intros i j Hi Hj. rewrite sumz_zsum. rewrite (zsum_ext n _ (fun k => vat (s_rays c) j k * vat (s_facets c) i k)) by (intros; ring). rewrite <- sumz_zsum, PA by auto. rewrite Nat.eqb_sym. destruct (Nat.eqb_spec i j) as [->|]; reflexivity. }
  split; [exact NF|]. cbn [swap_cone s_rays s_facets s_divs s_det s_dual_det]. split; [exact E2|]. split; [now apply (dual_det_nz n)|]. split.
  - split; [exact NV|]. split; [exact LD|]. split; [exact SY|]. split; [exact PO|]. exact PR.
  - intros i Hi. apply (primitive_divides n (nth i (s_rays c) [])); [destruct NV as [L F]; rewrite Forall_forall in F; apply F, nth_In; lia|exact (PR i Hi)|]. intros j Hj. rewrite E2. change (nth j (nth i (s_rays c) []) 0) with (ent (s_rays c) i j).
    (* det F * R = -D adj(F)^T *)
    exists (- adj n (ent (s_facets c)) j i).
    assert (EQ : zsum n (fun k => zsum n (fun t => ent (s_rays c) i t * ent (s_facets c) k t) * adj n (ent (s_facets c)) j k) = det n (ent (s_facets c)) * ent (s_rays c) i j).
    { rewrite (zsum_ext n _ (fun k => zsum n (fun t => ent (s_rays c) i t * (adj n (ent (s_facets c)) j k * ent (s_facets c) k t)))) by (intros k Hk; rewrite Z.mul_comm, <- zsum_scal; apply zsum_ext; intros; ring). rewrite zsum_swap. rewrite (zsum_ext n _ (fun t => ent (s_rays c) i t * (det n (ent (s_facets c)) * delta j t))).
      - rewrite (zsum_single n _ j Hj) by (intros t Ht N; rewrite delta_neq by auto; ring). rewrite delta_eq. ring.
      - intros t Ht. rewrite zsum_scal. f_equal. rewrite <- (adj_l n (ent (s_facets c)) j t Hj Ht). reflexivity. }
    rewrite <- EQ. rewrite (zsum_ext n _ (fun k => if (k =? i)%nat then - nth i (s_divs c) 0 * adj n (ent (s_facets c)) j i else 0)).
    + rewrite (zsum_single n _ i Hi) by (intros k Hk N; now rewrite (proj2 (Nat.eqb_neq k i) N)). rewrite Nat.eqb_refl. ring.
    + intros k Hk. rewrite (c_pair n c OK i k Hi Hk). rewrite Nat.eqb_sym. destruct (Nat.eqb_spec k i) as [->|]; ring.
Qed.

(** MatrixGCD *)
Definition row_gcd (r : list Z) : Z := fold_left Z.gcd r 0.
Lemma gcd_row r k : row_gcd r <> 0 -> nth k r 0 = row_gcd r * nth k (map (fun x => if x =? 0 then x else x / row_gcd r) r) 0.
Proof.
  intros G. destruct (Nat.lt_ge_cases k (length r)) as [H|H]; [|rewrite !nth_overflow by (rewrite ?map_length; auto); ring]. rewrite (nth_map0 _ _ _ _ 0) by auto. destruct (Z.eqb_spec (nth k r 0) 0) as [->|N]; [ring|].
  apply Z.div_exact; auto. apply Z.mod_divide; auto. apply (proj2 (proj1 (fold_gcd_div r 0 (row_gcd r)) (Z.divide_refl _))). now apply nth_In.
Qed.
Lemma matrix_gcd_ok n B : n_vectors n B -> lin_indep n B -> (0 < n)%nat ->
  n_vectors n (matrix_gcd B) /\ (forall i k, (i < n)%nat -> vat B i k = row_gcd (nth i B []) * vat (matrix_gcd B) i k) /\ (forall i, (i < n)%nat -> 0 < row_gcd (nth i B [])) /\ rays_primitive n (matrix_gcd B) /\ det n (ent (matrix_gcd B)) <> 0.
Proof.
  intros [L F] LI Hn. pose proof (indep_det n B LI) as D0. rewrite Forall_forall in F.
  assert (NTH : forall i, (i < n)%nat -> nth i (matrix_gcd B) [] = map (fun x => if x =? 0 then x else x / row_gcd (nth i B [])) (nth i B [])).
  { intros i Hi. unfold matrix_gcd. match goal with |- nth i (map ?f B) [] = _ => change (nth i (map f B) (f []) = map (fun x => if x =? 0 then x else x / row_gcd (nth i B [])) (nth i B [])) end. rewrite map_nth. reflexivity. }
  assert (GP : forall i, (i < n)%nat -> 0 < row_gcd (nth i B [])).
  { intros i Hi. assert (0 <= row_gcd (nth i B [])) by (apply fold_gcd_nonneg; lia). destruct (Z.eq_dec (row_gcd (nth i B [])) 0) as [Z0|]; [|lia]. exfalso. apply D0. rewrite (det_expand n _ i Hi). apply zsum_zero. intros j Hj.
    assert (DV : (row_gcd (nth i B []) | ent B i j)). { apply (proj2 (proj1 (fold_gcd_div (nth i B []) 0 _) (Z.divide_refl _))). unfold ent. apply nth_In. rewrite F; auto. apply nth_In. lia. } rewrite Z0 in DV. apply Z.divide_0_l in DV. rewrite DV. ring. }
  assert (EN : forall i k, (i < n)%nat -> vat B i k = row_gcd (nth i B []) * vat (matrix_gcd B) i k) by (intros i k Hi; unfold vat; rewrite NTH by auto; apply gcd_row; specialize (GP i Hi); lia).
  split; [split; [unfold matrix_gcd; now rewrite map_length|]|].
  { apply Forall_forall. intros r Hr. apply (In_nth _ _ []) in Hr as (i & Hi & <-). unfold matrix_gcd in Hi. rewrite map_length in Hi. rewrite NTH by lia. rewrite map_length. apply F, nth_In. lia. }
  split; auto. split; auto. split.
  - intros i Hi m H. specialize (GP i Hi). assert (DV : (row_gcd (nth i B []) * m | row_gcd (nth i B []) * 1)); [|apply Z.mul_divide_cancel_l in DV; [auto|lia]]. rewrite Z.mul_1_r. unfold row_gcd at 2. apply fold_gcd_div. split; [apply Z.divide_0_r|]. intros x Hx. apply (In_nth _ _ 0) in Hx as (k & Hk & <-). rewrite F in Hk by (apply nth_In; lia). change (nth k (nth i B []) 0) with (vat B i k). rewrite EN by auto. apply Z.mul_divide_mono_l. auto.
  - intros Z0. apply D0. rewrite (det_ext n (ent B) (mmul n (fun i j => if (i =? j)%nat then row_gcd (nth i B []) else 0) (ent (matrix_gcd B)))); [rewrite det_mul, Z0; ring|].
    intros i j Hi Hj. change (ent B i j) with (vat B i j). rewrite EN by auto. unfold mmul. rewrite (zsum_single n _ i Hi) by (intros k Hk N; rewrite (proj2 (Nat.eqb_neq i k)) by auto; ring). rewrite Nat.eqb_refl. reflexivity.
Qed.
Lemma scaled_in_cone n v B B' (g : nat -> Z) x : (forall i k, (i < n)%nat -> vat B i k = g i * vat B' i k) -> (forall i, (i < n)%nat -> 0 < g i) -> (in_cone n v B x <-> in_cone n v B' x).
Proof.
  intros E P. split; intros (a & Pa & Ca).
  - exists (fun k => a k * inject_Z (g k))%Q. split; [intros k Hk; apply Qmult_le_0_compat; auto; change 0%Q with (inject_Z 0); rewrite <- Zle_Qle; specialize (P k Hk); lia|]. intros i Hi. rewrite (Ca i Hi). apply sumq_ext. intros k Hk. rewrite (E k i Hk), inject_Z_mult. ring.
  - assert (GQ : forall k, (k < n)%nat -> (0 < inject_Z (g k))%Q) by (intros k Hk; change 0%Q with (inject_Z 0); rewrite <- Zlt_Qlt; auto).
    exists (fun k => a k / inject_Z (g k))%Q. split; [intros k Hk; apply Qle_shift_div_l; auto; rewrite Qmult_0_l; auto|]. intros i Hi. rewrite (Ca i Hi). apply sumq_ext. intros k Hk. rewrite (E k i Hk), inject_Z_mult. field. specialize (GQ k Hk). lra.
Qed.
Lemma scaled_in_polar n v B B' (g : nat -> Z) x : (forall i k, (i < n)%nat -> vat B i k = g i * vat B' i k) -> (forall i, (i < n)%nat -> 0 < g i) -> (in_polar n v B x <-> in_polar n v B' x).
Proof.
  intros E P. unfold in_polar. assert (S : forall r, (r < n)%nat -> (sumq n (fun k => (x k - v k) * inject_Z (vat B r k)) == inject_Z (g r) * sumq n (fun k => (x k - v k) * inject_Z (vat B' r k)))%Q).
  { intros r Hr. rewrite <- sumq_scal. apply sumq_ext. intros k Hk. rewrite (E r k Hr), inject_Z_mult. ring. }
  split; intros H r Hr; specialize (H r Hr); specialize (S r Hr); assert (G : (0 < inject_Z (g r))%Q) by (change 0%Q with (inject_Z 0); rewrite <- Zlt_Qlt; auto).
  - rewrite S in H. destruct (Qlt_le_dec 0 (sumq n (fun k => (x k - v k) * inject_Z (vat B' r k)))%Q) as [Y|Y]; auto. exfalso. pose proof (Qmult_lt_0_compat _ _ G Y). lra.
  - rewrite S. nra.
Qed.
(** The result of a decomposition in terms of membership. *)
Lemma value_counts mode sv max_det n v cons K g e c st r st' : good mode sv max_det n v cons K g e st r st' -> (forall x, g x = value n v c x) -> cone_ok n (b_cone c) ->
  exists new W, delivered st' = delivered st ++ new /\ proper_normals n W /\
  (mode <> DualDecomposition -> forall x, off_hyperplanes n (coord v) W (zpoint x)) /\
  (r <> -1 -> forall x, off_hyperplanes n (coord v) W x -> counts_to (inside mode n v x) (pairs new) (b_coef c) (in_cone n (coord v) (s_rays (b_cone c)) x)) /\
  Forall (leaf_ok sv max_det n K) new /\ stopped cons (delivered st) new r /\
  total_uni st' = total_uni st + Z.of_nat (length new) /\ cur_depth st' = cur_depth st /\ (r <> -1 -> cur_total st' = cur_total st - e).
Proof.
  intros (n1 & W1 & A1 & A2 & A3 & A4 & A5 & A6 & A7 & A8 & A9) GV OK. exists n1, W1. split; auto. split; auto. split; auto. split; [|auto]. intros NR x OFF. specialize (A4 NR x OFF). rewrite GV in A4. unfold value in A4. pose proof (ind_iff n (coord v) x _ OK) as II. split; intros H.
  - apply II in H. rewrite H in A4. exact A4.
  - destruct (ind n (coord v) x (b_cone c)); [exfalso; apply H; now apply II|exact A4].
Qed.
