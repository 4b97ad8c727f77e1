(** Limits of rational sequences. *)
From Coq Require Import QArith Qabs Qfield Lqa Qpower.
From Verif Require Import Common IntegMath Series DecompProofs ExpProofs.
Open Scope Q_scope.

Definition tends (F : Z -> Q) (c : Q) : Prop := forall eps, 0 < eps -> exists K, (0 < K)%Z /\ forall k, (K <= k)%Z -> Qabs (F k - c) <= eps.
Lemma tends_ext F G c : (exists K, forall k, (K <= k)%Z -> F k == G k) -> tends F c -> tends G c.
Proof. intros (K0 & E) H eps He. destruct (H eps He) as (K & K1 & HK). exists (Z.max K K0). split; [lia|]. intros k Hk. rewrite <- (E k) by lia. apply HK. lia. Qed.
Lemma tends_eq F c d : c == d -> tends F c -> tends F d.
Proof. intros E H eps He. destruct (H eps He) as (K & K1 & HK). exists K. split; [exact K1|]. intros k Hk. rewrite <- E. now apply HK. Qed.
Lemma tends_const c : tends (fun _ => c) c.
Proof. intros eps He. exists 1%Z. split; [lia|]. intros k _. setoid_replace (c - c) with 0 by ring. cbn. lra. Qed.
Lemma tends_plus F G c d : tends F c -> tends G d -> tends (fun k => F k + G k) (c + d).
Proof.
  intros HF HG eps He. destruct (HF (eps * (1#2))) as (K & K1 & HK); [lra|]. destruct (HG (eps * (1#2))) as (K' & K1' & HK'); [lra|]. exists (Z.max K K'). split; [lia|]. intros k Hk.
  setoid_replace (F k + G k - (c + d)) with ((F k - c) + (G k - d)) by ring. eapply Qle_trans; [apply Qabs_triangle|]. specialize (HK k ltac:(lia)). specialize (HK' k ltac:(lia)). lra.
Qed.
Lemma qmult_le a b c d : 0 <= a -> 0 <= c -> a <= b -> c <= d -> a * c <= b * d.
Proof. intros A C L M. apply Qle_trans with (b * c); [apply Qmult_le_compat_r; assumption|]. rewrite !(Qmult_comm b). apply Qmult_le_compat_r; lra. Qed.
Lemma tends_mult F G c d : tends F c -> tends G d -> tends (fun k => F k * G k) (c * d).
Proof.
  intros HF HG eps He. set (M := Qabs c + Qabs d + 1). pose proof (Qabs_nonneg c) as Pc. pose proof (Qabs_nonneg d) as Pd. assert (PM : 0 < M) by (unfold M; lra).
  set (e := eps / (2 * M)). assert (Pe : 0 < e) by (unfold e; apply Qlt_shift_div_l; lra).
  destruct (HF e Pe) as (K & K1 & HK). destruct (HG e Pe) as (K' & K1' & HK'). destruct (HF 1 ltac:(lra)) as (K2 & K2p & HK2). exists (Z.max K2 (Z.max K K')). split; [lia|]. intros k Hk.
  specialize (HK k ltac:(lia)). specialize (HK' k ltac:(lia)). specialize (HK2 k ltac:(lia)).
  setoid_replace (F k * G k - c * d) with (F k * (G k - d) + d * (F k - c)) by ring. eapply Qle_trans; [apply Qabs_triangle|]. rewrite !Qabs_Qmult.
  assert (BF : Qabs (F k) <= M). { setoid_replace (F k) with ((F k - c) + c) by ring. eapply Qle_trans; [apply Qabs_triangle|]. unfold M. lra. }
  assert (BD : Qabs d <= M) by (unfold M; lra).
  pose proof (qmult_le _ _ _ _ (Qabs_nonneg (F k)) (Qabs_nonneg (G k - d)) BF HK') as A. pose proof (qmult_le _ _ _ _ Pd (Qabs_nonneg (F k - c)) BD HK) as B.
  assert (E : M * e == eps * (1#2)) by (unfold e; field; lra). rewrite E in A, B. lra.
Qed.
Lemma tends_scale a F c : tends F c -> tends (fun k => a * F k) (a * c).
Proof. intros H. apply tends_mult; [apply tends_const|exact H]. Qed.
Lemma tends_minus F G c d : tends F c -> tends G d -> tends (fun k => F k - G k) (c - d).
Proof.
  intros HF HG. apply (tends_eq _ (c + (-1) * d)); [ring|]. apply (tends_ext (fun k => F k + (-1) * G k)); [exists 0%Z; intros; ring|]. apply tends_plus; [exact HF|]. now apply tends_scale.
Qed.
Lemma tends_inv F c : ~ c == 0 -> tends F c -> tends (fun k => / F k) (/ c).
Proof.
  intros N H eps He. assert (Pc : 0 < Qabs c). { destruct (Qlt_le_dec 0 (Qabs c)) as [L|L]; [exact L|]. exfalso. apply N. pose proof (Qle_Qabs c). pose proof (Qle_Qabs (- c)) as B. rewrite Qabs_opp in B. lra. }
  set (a := Qabs c) in *. assert (P2 : 0 < a * a) by (apply Qmult_lt_0_compat; assumption).
  set (e := eps * (a * a) * (1#2)). assert (Pe : 0 < e). { unfold e. apply Qmult_lt_0_compat; [apply Qmult_lt_0_compat; assumption|lra]. }
  destruct (H (a * (1#2))) as (K & K1 & HK); [lra|]. destruct (H e Pe) as (K' & K1' & HK'). exists (Z.max K K'). split; [lia|]. intros k Hk. specialize (HK k ltac:(lia)). specialize (HK' k ltac:(lia)).
  assert (BF : a * (1#2) <= Qabs (F k)). { assert (X : a <= Qabs (F k) + Qabs (F k - c)). { unfold a. setoid_replace c with (F k + - (F k - c)) at 1 by ring. eapply Qle_trans; [apply Qabs_triangle|]. rewrite Qabs_opp. lra. } lra. }
  assert (NF : ~ F k == 0). { intros E. rewrite E in BF. cbn in BF. lra. }
  setoid_replace (/ F k - / c) with ((F k - c) * (- / (F k * c))) by (field; split; assumption). rewrite Qabs_Qmult, Qabs_opp.
  assert (EI : Qabs (/ (F k * c)) <= 2 / (a * a)).
  { assert (P3 : 0 < Qabs (F k) * a) by (apply Qmult_lt_0_compat; lra). assert (E : Qabs (/ (F k * c)) == / (Qabs (F k) * a)).
    { assert (X : Qabs (/ (F k * c)) * (Qabs (F k) * a) == 1). { unfold a. rewrite <- Qabs_Qmult, <- Qabs_Qmult. setoid_replace (/ (F k * c) * (F k * c)) with 1 by (field; split; assumption). reflexivity. }
      apply (Qmult_inj_r _ _ (Qabs (F k) * a)); [lra|]. rewrite X. field. split; lra. }
    rewrite E. apply Qle_shift_div_l; [exact P2|]. rewrite Qmult_comm. apply Qle_shift_div_r; [exact P3|].
    setoid_replace (2 * (Qabs (F k) * a)) with ((2 * Qabs (F k)) * a) by ring. apply Qmult_le_compat_r; lra. }
  pose proof (qmult_le _ _ _ _ (Qabs_nonneg (F k - c)) (Qabs_nonneg (/ (F k * c))) HK' EI) as A. assert (E : e * (2 / (a * a)) == eps) by (unfold e; field; lra). rewrite E in A. exact A.
Qed.
Lemma tends_div F G c d : ~ d == 0 -> tends F c -> tends G d -> tends (fun k => F k / G k) (c / d).
Proof. intros N HF HG. unfold Qdiv. apply tends_mult; [exact HF|]. now apply tends_inv. Qed.
Lemma tends_unique F c d : tends F c -> tends F d -> c == d.
Proof.
  intros HF HG. destruct (Qeq_dec c d) as [E|N]; [exact E|exfalso]. assert (P : 0 < Qabs (c - d)). { destruct (Qlt_le_dec 0 (Qabs (c - d))) as [L|L]; [exact L|]. exfalso. apply N. pose proof (Qle_Qabs (c - d)). pose proof (Qle_Qabs (- (c - d))) as B. rewrite Qabs_opp in B. lra. }
  set (e := Qabs (c - d) * (1#3)). destruct (HF e) as (K & K1 & HK); [unfold e; lra|]. destruct (HG e) as (K' & K1' & HK'); [unfold e; lra|]. specialize (HK (Z.max K K') ltac:(lia)). specialize (HK' (Z.max K K') ltac:(lia)).
  assert (X : Qabs (c - d) <= e + e). { setoid_replace (c - d) with (- (F (Z.max K K') - c) + (F (Z.max K K') - d)) by ring. eapply Qle_trans; [apply Qabs_triangle|]. rewrite Qabs_opp. lra. } unfold e in X. lra.
Qed.
Lemma tends_pow F c j : tends F c -> tends (fun k => F k ^ Z.of_nat j) (c ^ Z.of_nat j).
Proof.
  intros H. induction j as [|j IH]; [exact (tends_const 1)|]. apply (tends_eq _ (c * c ^ Z.of_nat j)); [symmetry; apply Qpow_S|]. apply (tends_ext (fun k => F k * F k ^ Z.of_nat j)); [exists 0%Z; intros; symmetry; apply Qpow_S|]. now apply tends_mult.
Qed.
Lemma tends_qsum {A} (f : A -> Z -> Q) (c : A -> Q) l : (forall a, In a l -> tends (f a) (c a)) -> tends (fun k => qsum (fun a => f a k) l) (qsum c l).
Proof. induction l as [|a l IH]; intros H; cbn [qsum]; [apply tends_const|]. apply tends_plus; [apply H; now left|apply IH; intros; apply H; now right]. Qed.
Lemma tends_inverse : tends (fun k => / inject_Z k) 0.
Proof.
  intros eps He. destruct eps as [p q]. exists (Z.pos q). split; [lia|]. intros k Hk. assert (Pk : 0 < inject_Z k) by (unfold Qlt; cbn; lia).
  rewrite Qabs_pos; [|setoid_replace (/ inject_Z k - 0) with (/ inject_Z k) by ring; apply Qlt_le_weak, Qinv_lt_0_compat, Pk]. setoid_replace (/ inject_Z k - 0) with (1 / inject_Z k) by (field; lra). apply Qle_shift_div_r; [exact Pk|].
  unfold Qlt in He. cbn in He. unfold Qle. cbn. nia.
Qed.
(** The head of a polynomial sequence. *)
Lemma tends_affine (a b : Q) N i : (i <= N)%nat -> tends (fun k => (b + inject_Z k * a) ^ Z.of_nat (N - i) / inject_Z k ^ Z.of_nat N) (match i with O => a ^ Z.of_nat N | _ => 0 end).
Proof.
  intros Hi. assert (H : tends (fun k => (b * / inject_Z k + a) ^ Z.of_nat (N - i) * (/ inject_Z k) ^ Z.of_nat i) ((b * 0 + a) ^ Z.of_nat (N - i) * 0 ^ Z.of_nat i)).
  { apply tends_mult; apply tends_pow; [apply tends_plus; [apply tends_scale, tends_inverse|apply tends_const]|apply tends_inverse]. }
  apply (tends_eq _ _ (match i with O => a ^ Z.of_nat N | _ => 0 end)) in H.
  - revert H. apply tends_ext. exists 1%Z. intros k Hk. assert (Pk : 0 < inject_Z k) by (unfold Qlt; cbn; lia). replace (Z.of_nat N) with (Z.of_nat ((N - i) + i)) by lia. rewrite Qpow_add.
    setoid_replace (b + inject_Z k * a) with (inject_Z k * (b * / inject_Z k + a)) by (field; lra). rewrite Qmult_power, Qinv_power. field. split; apply Qpower_not_0; lra.
  - assert (E0 : b * 0 + a == a) by ring. rewrite E0. destruct i as [|i]; [rewrite Nat.sub_0_r; cbn; ring|]. rewrite Qpower_0 by lia. ring.
Qed.
