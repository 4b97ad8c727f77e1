(** Determinants of rational simplices. *)
From Coq Require Import QArith Qabs Qfield Qpower Permutation.
From Verif Require Import Common Rational RationalSpec Integ IntegSpec IntegMath IntegProofs2 IntegProofs4 IntegProofs5 DecompProofs Series ZMat Det DetProofs PipedProofs PipedProofs3 PerturbSpec PerturbProofs6 Valuation ValuationSpec.
Open Scope Z_scope.

Lemma zsum_inj n f : (inject_Z (ZMat.zsum n f) == qsum (fun i => inject_Z (f i)) (seq 0 n))%Q.
Proof.
  induction n as [|n IH]; [reflexivity|]. cbn [ZMat.zsum]. rewrite inject_Z_plus, IH, qsum_seq_S. reflexivity.
Qed.
Lemma qdet_ext n : forall A B, (forall i j, (i < n)%nat -> (j < n)%nat -> (A i j == B i j)%Q) -> (qdet n A == qdet n B)%Q.
Proof.
  induction n as [|n IH]; intros A B H; [reflexivity|]. cbn [qdet]. rewrite !sum_over_qsum. apply qsum_ext. intros j Hj. apply in_seq in Hj.
  rewrite (H 0%nat j) by lia. apply Qmult_comp; [reflexivity|]. apply Qmult_comp; [reflexivity|]. apply IH. intros a b Ha Hb. apply H; [lia|]. apply (skip_lt j b n Hb).
Qed.
Lemma qdet_inj n k : (0 < k)%Z -> forall A, (qdet n (fun i j => inject_Z (A i j) / inject_Z k) == inject_Z (det n A) / inject_Z (k ^ Z.of_nat n))%Q.
Proof.
  intros Hk. assert (N : ~ (inject_Z k == 0)%Q) by (apply injz_nz; lia). induction n as [|n IH]; intros A; [reflexivity|]. cbn [qdet det].
  rewrite zsum_inj, sum_over_qsum. unfold Qdiv. rewrite Qmult_comm, <- qsum_scale. apply qsum_ext. intros j _.
  rewrite (qdet_ext n _ (fun a b => inject_Z (minor A 0 j a b) / inject_Z k)%Q) by (intros; reflexivity). rewrite IH.
  rewrite !inject_Z_mult. rewrite Nat2Z.inj_succ, Z.pow_succ_r by lia. rewrite inject_Z_mult. field. split; auto. apply injz_nz. apply Z.pow_nonzero; lia.
Qed.

(** ** Homogenisation *)
Lemma det_col0 n A c : (c < n)%nat -> (forall i, (i < n)%nat -> A i c = 0) -> det n A = 0.
Proof.
  intros Hc H. rewrite <- det_tr. rewrite <- (ml_row n (det n) (det_ML n) (fun i j => A j i) c). apply (ml_zero n (det n) (det_ML n)); auto.
Qed.
Lemma hom_det n (u : nat -> nat -> Z) K :
  det (S n) (fun i k => if (k <? n)%nat then u i k else K) = sgn_of n * (K * det n (fun i k => u (S i) k - u 0%nat k)).
Proof.
  rewrite <- (ml_clear (S n) (det (S n)) (det_ML (S n)) (fun i k => if (k <? n)%nat then u i k else K) (fun _ => -1) n) by lia.
  cbn [det]. cbn [ZMat.zsum]. change ((0 <? 0)%nat) with false. cbn [andb]. rewrite zsum_zero.
  - rewrite Z.add_0_l. rewrite Nat.ltb_irrefl.
    rewrite (det_ext n _ (fun i k => u (S i) k - u 0%nat k)); [ring|]. intros a b Ha Hb. unfold minor. replace (skip n b) with b by (unfold skip; now rewrite (proj2 (Nat.ltb_lt b n))).
    change (skip 0 a) with (S a). change ((0 <? S a)%nat) with true. rewrite (proj2 (Nat.ltb_lt b n)), (proj2 (Nat.leb_le (S a) n)) by lia. cbn [andb]. ring.
  - intros j Hj. rewrite (det_col0 n _ (n - 1)); [ring|lia|]. intros a Ha. unfold minor.
    assert (E : skip j (n - 1) = n) by (unfold skip; rewrite (proj2 (Nat.ltb_ge _ _)); lia). rewrite E.
    change (skip 0 a) with (S a). change ((0 <? S a)%nat) with true. rewrite Nat.ltb_irrefl, (proj2 (Nat.leb_le (S a) n)) by lia. cbn [andb]. ring.
Qed.
(** Rows scaled by [a i]. *)
Lemma det_rows n (a : nat -> Z) A : det n (fun i k => a i * A i k) = product (map a (seq 0 n)) * det n A.
Proof.
  rewrite (det_ext n _ (mmul n (fun i j => if (i =? j)%nat then a i else 0) A)).
  - rewrite det_mul, det_diag. reflexivity.
  - intros i k Hi Hk. unfold mmul. rewrite (zsum_single n _ i Hi); [now rewrite Nat.eqb_refl|]. intros j _ N. rewrite (proj2 (Nat.eqb_neq i j)) by congruence. ring.
Qed.
Lemma product_const n (k : Z) : product (map (fun _ : nat => k) (seq 0 n)) = k ^ Z.of_nat n.
Proof.
  generalize 0%nat. induction n as [|n IH]; intros i; [reflexivity|]. cbn [seq map product fold_right]. fold (product (map (fun _ : nat => k) (seq (S i) n))). rewrite IH, Nat2Z.inj_succ, Z.pow_succ_r by lia. reflexivity.
Qed.
Lemma product_div l x : In x l -> (x | product l).
Proof.
  induction l as [|y l IH]; [intros []|]. cbn [product fold_right]. fold (product l). intros [->|H]; [exists (product l); ring|]. apply Z.divide_mul_r. auto.
Qed.
(** The determinant of the rays [w_i, a_i] against the simplex with vertices w_i/a_i. *)
Lemma ray_det n (w : nat -> nat -> Z) (a : nat -> Z) : (forall i, (i <= n)%nat -> 0 < a i) ->
  (inject_Z (Z.abs (det (S n) (fun i k => if (k <? n)%nat then w i k else a i))) ==
   inject_Z (product (map a (seq 0 (S n)))) * Qabs (qdet n (fun i k => inject_Z (w (S i) k) / inject_Z (a (S i)) - inject_Z (w 0%nat k) / inject_Z (a 0%nat))))%Q.
Proof.
  intros HP. set (K := product (map a (seq 0 (S n)))).
  assert (KP : 0 < K). { unfold K. apply (PerturbProofs6.product_pos a). apply Forall_forall. intros i Hi. apply in_seq in Hi. apply HP. lia. }
  assert (KD : forall i, (i <= n)%nat -> (a i | K)) by (intros i Hi; apply product_div, in_map, in_seq; lia).
  set (u := fun i k => K / a i * w i k).
  assert (HU : forall i k, (i <= n)%nat -> a i * u i k = K * w i k). { intros i k Hi. unfold u. destruct (KD i Hi) as [q ->]. specialize (HP i Hi). rewrite Z.div_mul by lia. ring. }
  pose proof (det_rows (S n) a (fun i k => if (k <? n)%nat then u i k else K)) as E1. fold K in E1.
  rewrite (det_ext (S n) _ (fun i k => K * (if (k <? n)%nat then w i k else a i))) in E1 by (intros i k Hi Hk; destruct (k <? n)%nat; [apply HU; lia|ring]).
  rewrite (det_rows (S n) (fun _ => K) (fun i k => if (k <? n)%nat then w i k else a i)), product_const, hom_det in E1.
  set (X := det (S n) _) in *. set (E := det n _) in E1.
  assert (E2 : (qdet n (fun i k => inject_Z (w (S i) k) / inject_Z (a (S i)) - inject_Z (w 0%nat k) / inject_Z (a 0%nat)) == inject_Z E / inject_Z (K ^ Z.of_nat n))%Q).
  { unfold E. rewrite <- (qdet_inj n K KP). apply qdet_ext. intros i k Hi Hk. rewrite injZ_sub.
    assert (F : forall i, (i <= n)%nat -> (inject_Z (u i k) == inject_Z K * (inject_Z (w i k) / inject_Z (a i)))%Q).
    { intros i' Hi'. assert (~ inject_Z (a i') == 0)%Q by (apply injz_nz; specialize (HP i' Hi'); lia). apply (Qmult_inj_l _ _ (inject_Z (a i'))); auto. rewrite <- inject_Z_mult, HU by auto. rewrite inject_Z_mult. field. auto. }
    rewrite !F by lia. field. repeat split; apply injz_nz; try lia; [specialize (HP 0%nat ltac:(lia))|specialize (HP (S i) ltac:(lia))]; lia. }
  rewrite E2. unfold Qdiv. rewrite Qabs_Qmult. rewrite (Qabs_pos (/ inject_Z (K ^ Z.of_nat n))).
  2:{ apply Qinv_le_0_compat. change 0%Q with (inject_Z 0). rewrite <- Zle_Qle. apply Z.pow_nonneg. lia. }
  assert (QA : forall z, (Qabs (inject_Z z) == inject_Z (Z.abs z))%Q) by (intros z; reflexivity). rewrite QA.
  assert (E3 : K ^ Z.of_nat n * Z.abs X = K * Z.abs E).
  { assert (E4 : Z.abs (K ^ Z.of_nat (S n) * X) = Z.abs (K * (sgn_of n * (K * E)))) by congruence. rewrite !Z.abs_mul in E4. rewrite Nat2Z.inj_succ, Z.pow_succ_r in E4 by lia.
    rewrite Z.abs_mul in E4. assert (SG : Z.abs (sgn_of n) = 1) by (unfold sgn_of; destruct (Nat.even n); reflexivity). rewrite SG in E4. assert (PP : 0 < K ^ Z.of_nat n) by (apply Z.pow_pos_nonneg; lia).
    rewrite (Z.abs_eq K), (Z.abs_eq (K ^ Z.of_nat n)) in E4 by lia. nia. }
  assert (PP : ~ (inject_Z (K ^ Z.of_nat n) == 0)%Q) by (apply injz_nz; apply Z.pow_nonzero; lia).
  apply (Qmult_inj_l _ _ (inject_Z (K ^ Z.of_nat n))); auto. rewrite <- inject_Z_mult, E3, inject_Z_mult. field. exact PP.
Qed.
