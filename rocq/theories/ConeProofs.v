(** Coordinates with respect to the rays of a simplicial cone, through its facets. *)
From Coq Require Import QArith Qfield Qround Lqa.
From Verif Require Import Common ZMat Hermite HermiteProofs Det DetProofs RatVec RatVecSpec Piped PipedSpec PipedProofs PipedProofs2 PipedProofs3 PipedProofs4 ConeSpec.
Open Scope Q_scope.

Section Cone.
Context (n : nat) (c : scone) (OK : cone_ok n c).
Let A := ent (s_rays c). Let F := ent (s_facets c). Let dl := fun j => nth j (s_divs c) 0%Z. Let dd := Z.abs (det n A). Let sc := fun j => (dd / dl j)%Z.
Definition phi (y : nat -> Q) (i : nat) : Q := sumq n (fun k => y k * inject_Z (ent (s_facets c) i k)).
Lemma c_pair i j : (i < n)%nat -> (j < n)%nat -> zsum n (fun k => (A i k * F j k)%Z) = if (i =? j)%nat then (- dl j)%Z else 0%Z.
Proof. destruct OK as (NV & ED & D0 & DU & DV). exact (w_pair n _ _ _ DU i j). Qed.
Lemma c_dl j : (j < n)%nat -> (0 < nth j (s_divs c) 0)%Z.
Proof. destruct OK as (NV & ED & D0 & DU & DV). exact (w_dl n _ _ _ DU j). Qed.
Lemma c_dn : det n A <> 0%Z.
Proof. destruct OK as (NV & ED & D0 & DU & DV). unfold A. now rewrite <- ED. Qed.
Lemma c_dd : (0 < dd)%Z.
Proof. pose proof c_dn. unfold dd. lia. Qed.
Lemma c_sc j : (j < n)%nat -> (sc j * dl j)%Z = dd.
Proof. destruct OK as (NV & ED & D0 & DU & DV). intros Hj. refine (w_sc n _ _ _ DU _ j Hj). intros k Hk. rewrite <- ED. now apply DV. Qed.
Lemma c_dlq j : (j < n)%nat -> 0 < inject_Z (dl j).
Proof. intros Hj. change 0 with (inject_Z 0). rewrite <- Zlt_Qlt. now apply c_dl. Qed.
Lemma phi_ext y y' i : (forall k, (k < n)%nat -> y k == y' k) -> phi y i == phi y' i.
Proof. intros H. unfold phi. apply sumq_ext. intros k Hk. now rewrite H. Qed.
Lemma phi_add y y' i : phi (fun k => y k + y' k) i == phi y i + phi y' i.
Proof. unfold phi. rewrite <- sumq_add. apply sumq_ext. intros; ring. Qed.
Lemma phi_scal t y i : phi (fun k => t * y k) i == t * phi y i.
Proof. unfold phi. rewrite <- sumq_scal. apply sumq_ext. intros; ring. Qed.
Lemma phi_sub y y' i : phi (fun k => y k - y' k) i == phi y i - phi y' i.
Proof. rewrite (phi_ext _ (fun k => y k + (-1) * y' k)) by (intros; ring). rewrite phi_add, phi_scal. ring. Qed.
Lemma comb_coord a y i : combination n (s_rays c) a y -> (i < n)%nat -> inject_Z (nth i (s_divs c) 0%Z) * a i == - phi y i.
Proof.
  intros H Hi. unfold phi. rewrite (sumq_ext n _ (fun k => sumq n (fun j => a j * inject_Z (A j k * F i k)))).
  - rewrite sumq_swap. rewrite (sumq_ext n _ (fun j => a j * inject_Z (zsum n (fun k => (A j k * F i k)%Z)))) by (intros j Hj; rewrite <- sumq_inj, <- sumq_scal; reflexivity).
    rewrite (sumq_single n _ i Hi).
    + rewrite c_pair, Nat.eqb_refl by auto. rewrite inject_Z_opp. unfold dl. ring.
    + intros j Hj N. rewrite c_pair by auto. rewrite (proj2 (Nat.eqb_neq j i)) by auto. ring.
  - intros k Hk. rewrite (H k Hk). rewrite (Qmult_comm (sumq n _)), <- sumq_scal. apply sumq_ext. intros j Hj. rewrite inject_Z_mult. unfold vat, A, F, ent. ring.
Qed.
Lemma comb_self y : combination n (s_rays c) (fun i => - phi y i / inject_Z (nth i (s_divs c) 0%Z)) y.
Proof.
  intros k Hk. pose proof c_dd as Hd. assert (Hdq : ~ inject_Z dd == 0) by (apply inj_nz; lia).
  apply (Qmult_inj_l _ _ (inject_Z dd) Hdq). rewrite <- sumq_scal. unfold phi.
  rewrite (sumq_ext n _ (fun i => sumq n (fun l => (- y l) * inject_Z (F i l * sc i * A i k)))).
  - rewrite sumq_swap. rewrite (sumq_ext n _ (fun l => - y l * inject_Z (zsum n (fun i => (F i l * sc i * A i k)%Z)))) by (intros l Hl; rewrite <- sumq_inj, <- sumq_scal; reflexivity).
    rewrite (sumq_single n _ k Hk).
    + rewrite (dual_left n A F dl sc dd c_dn c_pair c_sc k k Hk Hk), Nat.eqb_refl, inject_Z_opp. ring.
    + intros l Hl N. rewrite (dual_left n A F dl sc dd c_dn c_pair c_sc l k Hl Hk), (proj2 (Nat.eqb_neq l k)) by auto. ring.
  - intros i Hi. rewrite <- (c_sc i Hi), inject_Z_mult. pose proof (c_dlq i Hi) as P. fold F.
    rewrite (sumq_ext n (fun l => - y l * inject_Z (F i l * sc i * A i k)) (fun l => - (inject_Z (sc i) * inject_Z (A i k)) * (y l * inject_Z (F i l)))) by (intros l Hl; rewrite !inject_Z_mult; ring).
    rewrite sumq_scal. fold (dl i). unfold vat. fold (ent (s_rays c) i k). fold A. field. intros E. rewrite E in P. discriminate.
Qed.
Lemma in_cone_iff v x : in_cone n v (s_rays c) x <-> forall i, (i < n)%nat -> phi x i <= phi v i.
Proof.
  split.
  - intros (a & P & C) i Hi. pose proof (comb_coord a _ i C Hi) as E. rewrite phi_sub in E. specialize (P i Hi). pose proof (c_dlq i Hi) as D. pose proof (Qmult_le_0_compat _ _ (Qlt_le_weak _ _ D) P) as G. fold (dl i) in E. rewrite E in G. lra.
  - intros H. exists (fun i => - phi (fun k => x k - v k) i / inject_Z (dl i)). split; [|apply comb_self]. intros i Hi. pose proof (c_dlq i Hi) as D. apply Qle_shift_div_l; auto. rewrite phi_sub. specialize (H i Hi). lra.
Qed.
Lemma in_open_cone_iff v x : in_open_cone n v (s_rays c) x <-> forall i, (i < n)%nat -> phi x i < phi v i.
Proof.
  split.
  - intros (a & P & C) i Hi. pose proof (comb_coord a _ i C Hi) as E. rewrite phi_sub in E. specialize (P i Hi). pose proof (c_dlq i Hi) as D. pose proof (Qmult_lt_0_compat _ _ D P) as G. fold (dl i) in E. rewrite E in G. lra.
  - intros H. exists (fun i => - phi (fun k => x k - v k) i / inject_Z (dl i)). split; [|apply comb_self]. intros i Hi. pose proof (c_dlq i Hi) as D. apply Qlt_shift_div_l; auto. rewrite phi_sub. specialize (H i Hi). lra.
Qed.
Lemma on_wall_iff v x : on_wall n v (s_rays c) x <-> exists i, (i < n)%nat /\ phi x i == phi v i.
Proof.
  split.
  - intros (a & j & Hj & Z0 & C). exists j. split; auto. pose proof (comb_coord a _ j C Hj) as E. rewrite phi_sub, Z0 in E. lra.
  - intros (i & Hi & E). exists (fun i => - phi (fun k => x k - v k) i / inject_Z (dl i)), i. split; auto. split; [|apply comb_self]. rewrite phi_sub, E. unfold Qdiv. ring.
Qed.
Lemma phi_zpoint x i : phi (zpoint x) i == inject_Z (zsum n (fun k => (nth k x 0 * ent (s_facets c) i k)%Z)).
Proof. unfold phi, zpoint. rewrite <- sumq_inj. apply sumq_ext. intros; now rewrite inject_Z_mult. Qed.
End Cone.
(** floors *)
Lemma floor_unique q z : inject_Z z <= q -> q < inject_Z (z + 1) -> Qfloor q = z.
Proof.
  intros H1 H2. assert (A : (z <= Qfloor q)%Z) by (rewrite <- (Qfloor_Z z); now apply Qfloor_resp_le).
  assert (B : (Qfloor q < z + 1)%Z) by (rewrite Zlt_Qlt; eapply Qle_lt_trans; [apply Qfloor_le|exact H2]). lia.
Qed.
Lemma floor_div P s q : s <> 0%Z -> inject_Z P == inject_Z s * q -> (P / s)%Z = Qfloor q.
Proof.
  intros Hs E. symmetry. pose proof (Z.div_mod P s Hs) as DM. pose proof (Z.mod_bound_or P s Hs) as MB. set (k := (P / s)%Z) in *. set (r := (P mod s)%Z) in *.
  assert (EQ : q == inject_Z k + inject_Z r / inject_Z s).
  { assert (Hq : ~ inject_Z s == 0) by now apply inj_nz. apply (Qmult_inj_l _ _ (inject_Z s) Hq). rewrite <- E, DM, inject_Z_plus, inject_Z_mult. field. auto. }
  apply floor_unique.
  - rewrite EQ. assert (0 <= inject_Z r / inject_Z s) by (apply quot_nonneg; [auto|nia]). lra.
  - rewrite EQ, inject_Z_plus. assert (inject_Z r / inject_Z s < 1) by (apply quot_lt1; [auto|nia]). change (inject_Z 1) with 1. lra.
Qed.
Lemma le_floor z q : inject_Z z <= q <-> (z <= Qfloor q)%Z.
Proof.
  split; intros H.
  - rewrite <- (Qfloor_Z z). now apply Qfloor_resp_le.
  - eapply Qle_trans; [|apply Qfloor_le]. now rewrite <- Zle_Qle.
Qed.
Lemma floor_scaled (m l : Z) q : (0 < m)%Z -> inject_Z l <= inject_Z m * q -> inject_Z m * q < inject_Z (l + 1) -> Qfloor q = (l / m)%Z.
Proof.
  intros Hm H1 H2. pose proof (Z.div_mod l m ltac:(lia)) as DM. pose proof (Z.mod_pos_bound l m Hm) as MB. set (k := (l / m)%Z) in *. set (r := (l mod m)%Z) in *. assert (MP : 0 < inject_Z m) by (change 0 with (inject_Z 0); now rewrite <- Zlt_Qlt).
  apply floor_unique.
  - apply (Qmult_le_l _ _ _ MP). eapply Qle_trans; [|exact H1]. rewrite <- inject_Z_mult, <- Zle_Qle. nia.
  - apply (Qmult_lt_l _ _ _ MP). eapply Qlt_le_trans; [exact H2|]. rewrite <- inject_Z_mult, <- Zle_Qle. nia.
Qed.
