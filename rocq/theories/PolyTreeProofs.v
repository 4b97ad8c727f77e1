(** In-place series arithmetic of PolyTree.v. *)
From Coq Require Import QArith Qfield Qround Qpower.
From Verif Require Import Common IntegMath DecompProofs InterpProofs2 ZMat Series HermiteProofs PolyTree PolyTreeSpec.
Open Scope Z_scope.

Lemma zsum_head n f : zsum (S n) f = f O + zsum n (fun i => f (S i)).
Proof. induction n as [|n IH]; cbn [zsum] in *; lia. Qed.
Lemma inj_zsum n f : (inject_Z (zsum n f) == qsum (fun i => inject_Z (f i)) (seq 0 n))%Q.
Proof. induction n as [|n IH]; [reflexivity|]. rewrite qsum_seq_S. cbn [zsum]. rewrite inject_Z_plus, IH. reflexivity. Qed.
Lemma to_q_mul f g k : (to_q (zmul f g) k == conv (to_q f) (to_q g) k)%Q.
Proof. unfold to_q, zmul. rewrite inj_zsum. unfold conv. apply qsum_ext. intros i _. now rewrite inject_Z_mult. Qed.
Lemma inj_eq a b : (inject_Z a == inject_Z b)%Q -> a = b.
Proof. unfold Qeq, inject_Z. cbn. lia. Qed.
Lemma zmul_assoc f g h k : zmul (zmul f g) h k = zmul f (zmul g h) k.
Proof.
  apply inj_eq. change (to_q (zmul (zmul f g) h) k == to_q (zmul f (zmul g h)) k)%Q. rewrite !to_q_mul.
  rewrite (conv_ext _ _ _ _ (to_q_mul f g) (fun _ => Qeq_refl _) k), (conv_ext _ _ _ _ (fun _ => Qeq_refl _) (to_q_mul g h) k). apply conv_assoc.
Qed.
Lemma zmul_comm f g k : zmul f g k = zmul g f k.
Proof. apply inj_eq. change (to_q (zmul f g) k == to_q (zmul g f) k)%Q. rewrite !to_q_mul. apply conv_comm. Qed.
Lemma zmul_ext f f' g g' n : (forall k, (k <= n)%nat -> f k = f' k) -> (forall k, (k <= n)%nat -> g k = g' k) -> forall k, (k <= n)%nat -> zmul f g k = zmul f' g' k.
Proof. intros H K k Hk. unfold zmul. apply zsum_ext. intros i Hi. rewrite H, K by lia. reflexivity. Qed.
Lemma zmul_one f k : zmul zone f k = f k.
Proof. unfold zmul. rewrite zsum_head, Nat.sub_0_r, zsum_zero; [cbn [zone]; lia|]. intros i _. cbn [zone]. lia. Qed.
Lemma zpower_add f a b : forall k, zpower f (a + b) k = zmul (zpower f a) (zpower f b) k.
Proof.
  induction a as [|a IH]; intros k; cbn [Nat.add zpower]; [now rewrite zmul_one|]. rewrite zmul_assoc. apply (zmul_ext _ _ _ _ k); auto.
Qed.
Lemma zpower_1 f k : zpower f 1 k = f k.
Proof. cbn [zpower]. now rewrite zmul_comm, zmul_one. Qed.
Lemma zpower_ext f g n : (forall k, (k <= n)%nat -> f k = g k) -> forall m k, (k <= n)%nat -> zpower f m k = zpower g m k.
Proof. intros H. induction m as [|m IH]; intros k Hk; cbn [zpower]; auto. apply (zmul_ext _ _ _ _ n); auto. Qed.

(** r holds the first deg+1 coefficients of f *)
Definition repr (deg : nat) (r : list Z) (f : zser) : Prop := length r = (deg + 1)%nat /\ forall k, (k <= deg)%nat -> nth k r 0 = f k.
Lemma repr_trunc deg r f : repr deg r f <-> r = truncation f deg.
Proof.
  unfold truncation. split.
  - intros [L N]. apply (nth_ext _ _ 0 0); [now rewrite map_length, seq_length|]. intros k Hk. rewrite L in Hk. rewrite nth_map_seq by auto. apply N. lia.
  - intros ->. split; [now rewrite map_length, seq_length|]. intros k Hk. rewrite nth_map_seq by lia. reflexivity.
Qed.
(** Processing entries m-1, ..., 0, each new value computed from entries not above. *)
Lemma inplace (step : list Z -> nat -> list Z) (new : list Z -> nat -> Z) :
  (forall r j, step r j = upd r j (new r j)) -> (forall r r' j, (forall i, (i <= j)%nat -> nth i r 0 = nth i r' 0) -> new r j = new r' j) ->
  forall m r, (m <= length r)%nat -> length (fold_left step (rev (seq 0 m)) r) = length r /\
    (forall j, (j < m)%nat -> nth j (fold_left step (rev (seq 0 m)) r) 0 = new r j) /\ (forall j, (m <= j)%nat -> nth j (fold_left step (rev (seq 0 m)) r) 0 = nth j r 0).
Proof.
  intros HS HN. induction m as [|m IH]; intros r Hm; [cbn [seq rev fold_left]; repeat split; auto; intros; lia|].
  rewrite seq_S, rev_app_distr. cbn [rev app fold_left Nat.add]. rewrite HS. destruct (IH (upd r m (new r m))) as (I1 & I2 & I3); [rewrite length_upd; lia|]. rewrite length_upd in I1. split; auto. split.
  - intros j Hj. destruct (Nat.eq_dec j m) as [->|N]; [rewrite I3, nth_upd_eq by lia; reflexivity|]. rewrite I2 by lia. apply HN. intros i Hi. apply nth_upd_neq. lia.
  - intros j Hj. rewrite I3 by lia. apply nth_upd_neq. lia.
Qed.
Lemma mul_inplace_ok deg r t f g : repr deg r f -> repr deg t g -> repr deg (mul_inplace deg r t) (zmul f g).
Proof.
  intros [Lr Nr] [Lt Nt]. unfold mul_inplace.
  destruct (inplace (mul_step t) (fun r j => nth j r 0 * nth 0 t 0 + zsum j (fun k => nth (S k) t 0 * nth (j - S k) r 0)) (fun _ _ => eq_refl)) with (m := (deg + 1)%nat) (r := r) as (I1 & I2 & _); [|lia|].
  - intros a b j H. rewrite H by lia. f_equal. apply zsum_ext. intros k Hk. rewrite H by lia. reflexivity.
  - split; [congruence|]. intros k Hk. rewrite I2 by lia. rewrite zmul_comm. unfold zmul. rewrite zsum_head, Nat.sub_0_r, Nr, Nt by lia. rewrite Z.mul_comm. f_equal. apply zsum_ext. intros i Hi. rewrite Nr, Nt by lia. reflexivity.
Qed.
Definition sq_new (r : list Z) (j : nat) : Z := match j with O => nth 0 r 0 * nth 0 r 0 | S _ => nth j r 0 * (2 * nth 0 r 0) + zsum (j - 1) (fun k => nth (S k) r 0 * nth (j - S k) r 0) end.
Lemma square_inplace_ok deg r f : repr deg r f -> repr deg (square_inplace deg r) (zmul f f).
Proof.
  intros [Lr Nr]. unfold square_inplace. destruct (inplace square_step sq_new) with (m := (deg + 1)%nat) (r := r) as (I1 & I2 & _); [| |lia|].
  - intros a [|j]; reflexivity.
  - intros a b [|j] H; unfold sq_new; [now rewrite H by lia|]. rewrite !H by lia. f_equal. apply zsum_ext. intros k Hk. rewrite !H by lia. reflexivity.
  - split; [congruence|]. intros k Hk. rewrite I2 by lia. unfold sq_new, zmul. destruct k as [|k]; [cbn [zsum]; rewrite Nr by lia; cbn [Nat.sub]; ring|].
    rewrite zsum_head, Nat.sub_0_r. cbn [zsum]. rewrite Nat.sub_diag. replace (S k - 1)%nat with k by lia. rewrite !Nr by lia. rewrite (zsum_ext k _ (fun i => f (S i) * f (S k - S i)%nat)); [ring|]. intros i Hi. rewrite !Nr by lia. reflexivity.
Qed.
Lemma repr_ext deg r f g : (forall k, (k <= deg)%nat -> f k = g k) -> repr deg r f -> repr deg r g.
Proof. intros H [L N]. split; auto. intros k Hk. rewrite N; auto. Qed.
Lemma pow_loop_ok deg e t f : repr deg t f -> 0 <= e -> forall m r, repr deg r (zpower f (Z.to_nat (Z.shiftr e (Z.of_nat m)))) -> repr deg (pow_loop m deg e t r) (zpower f (Z.to_nat e)).
Proof.
  intros Ht He. induction m as [|m IH]; intros r Hr; cbn [pow_loop]; [exact Hr|]. apply IH. set (s := Z.shiftr e (Z.of_nat (S m))) in *.
  assert (Hs : 0 <= s) by (apply Z.shiftr_nonneg; auto).
  assert (E : Z.shiftr e (Z.of_nat m) = 2 * s + Z.b2z (Z.testbit e (Z.of_nat m))).
  { unfold s. rewrite Nat2Z.inj_succ, <- Z.add_1_r, <- Z.shiftr_shiftr by lia. rewrite <- Z.div2_spec. rewrite (Z.div2_odd (Z.shiftr e (Z.of_nat m))) at 1. f_equal. f_equal. rewrite <- Z.bit0_odd, Z.shiftr_spec by lia. reflexivity. }
  rewrite E. destruct (Z.testbit e (Z.of_nat m)); cbn [Z.b2z].
  - replace (Z.to_nat (2 * s + 1)) with (Z.to_nat s + Z.to_nat s + 1)%nat by lia. eapply repr_ext; [|apply mul_inplace_ok; [apply square_inplace_ok; exact Hr|exact Ht]]. intros k Hk. rewrite zpower_add. apply (zmul_ext _ _ _ _ deg); auto; intros; [symmetry; apply zpower_add|symmetry; apply zpower_1].
  - replace (Z.to_nat (2 * s + 0)) with (Z.to_nat s + Z.to_nat s)%nat by lia. eapply repr_ext; [|apply square_inplace_ok; exact Hr]. intros k Hk. now rewrite zpower_add.
Qed.
Lemma top_bit_ok k : forall e, 0 < e < 2 ^ Z.of_nat k -> top_bit k e = Ok (Z.to_nat (Z.log2 e)).
Proof.
  induction k as [|k IH]; intros e He; [cbn in He; lia|]. cbn [top_bit]. destruct (Z.testbit e (Z.of_nat k)) eqn:T.
  - f_equal. apply Nat2Z.inj. rewrite Z2Nat.id by apply Z.log2_nonneg. symmetry. apply Z.log2_unique; [lia|]. split; [|rewrite Nat2Z.inj_succ in He; lia].
    destruct (Z_lt_le_dec e (2 ^ Z.of_nat k)) as [L|L]; auto. rewrite Z.bits_above_log2 in T; [discriminate|lia|]. apply Z.log2_lt_pow2; lia.
  - apply IH. split; [lia|]. destruct (Z_lt_le_dec e (2 ^ Z.of_nat k)) as [L|L]; auto. exfalso. assert (LG : Z.log2 e = Z.of_nat k) by (apply Z.log2_unique; [lia|rewrite Nat2Z.inj_succ in He; lia]). rewrite <- LG, Z.bit_log2 in T by lia. discriminate.
Qed.
Lemma power_ok deg e t f : repr deg t f -> 0 < e < 2 ^ 32 -> exists tb, top_bit 32 e = Ok tb /\ repr deg (pow_loop tb deg e t t) (zpower f (Z.to_nat e)).
Proof.
  intros Ht He. exists (Z.to_nat (Z.log2 e)). split; [now apply top_bit_ok|]. apply pow_loop_ok; [auto|lia|]. rewrite Z2Nat.id by apply Z.log2_nonneg.
  assert (E : Z.shiftr e (Z.log2 e) = 1).
  { rewrite Z.shiftr_div_pow2 by apply Z.log2_nonneg. destruct (Z.log2_spec e ltac:(lia)) as [L U]. pose proof (Z.pow_succ_r 2 (Z.log2 e) (Z.log2_nonneg e)). symmetry. apply (Z.div_unique_pos e (2 ^ Z.log2 e) 1 (e - 2 ^ Z.log2 e)); lia. }
  rewrite E. change (Z.to_nat 1) with 1%nat. eapply repr_ext; [|exact Ht]. intros k _. now rewrite zpower_1.
Qed.
(** division *)
Open Scope Q_scope.
Lemma qpow_S a n : a ^ Z.of_nat (S n) == a * a ^ Z.of_nat n. Proof. apply Qpow_S. Qed.
Lemma div_inner_ok cnt : forall j k b res bz acc, let '(acc', bz') := div_inner j cnt k b res bz acc in
  inject_Z bz' == inject_Z bz * inject_Z (nth 0 b 0%Z) ^ Z.of_nat cnt /\
  inject_Z acc' == inject_Z acc - inject_Z bz * qsum (fun i => inject_Z (nth (j + i) b 0%Z) * inject_Z (nth (k - (j + i)) res 0%Z) * inject_Z (nth 0 b 0%Z) ^ Z.of_nat i) (seq 0 cnt).
Proof.
  induction cnt as [|cnt IH]; intros j k b res bz acc; cbn [div_inner].
  - split; [cbn; ring|]. cbn [seq qsum]. ring.
  - specialize (IH (S j) k b res (bz * nth 0 b 0)%Z (acc - nth j b 0 * nth (k - j) res 0 * bz)%Z). destruct (div_inner _ _ _ _ _ _ _) as [acc' bz']. destruct IH as [I1 I2]. split.
    + rewrite I1, inject_Z_mult, qpow_S. ring.
    + rewrite I2, qsum_seq_head, Nat.add_0_r. unfold Z.sub at 1. rewrite inject_Z_plus, inject_Z_opp, !inject_Z_mult. change (Z.of_nat 0) with 0%Z. rewrite Qpower_0_r.
      rewrite (qsum_ext (fun c => inject_Z (nth (j + S c) b 0%Z) * inject_Z (nth (k - (j + S c)) res 0%Z) * inject_Z (nth 0 b 0%Z) ^ Z.of_nat (S c)) (fun c => inject_Z (nth 0 b 0%Z) * (inject_Z (nth (S j + c) b 0%Z) * inject_Z (nth (k - (S j + c)) res 0%Z) * inject_Z (nth 0 b 0%Z) ^ Z.of_nat c))).
      * rewrite qsum_scale. ring.
      * intros i _. replace (j + S i)%nat with (S j + i)%nat by lia. rewrite qpow_S. ring.
Qed.
Section div.
Variables (deg : nat) (a b : list Z) (fa fb : zser) (c : ser).
Hypothesis (Ra : repr deg a fa) (Rb : repr deg b fb) (B0 : fb O <> 0%Z) (C : forall k, conv c (to_q fb) k == to_q fa k).
Lemma b0_nz : ~ inject_Z (fb O) == 0.
Proof. intros E. apply B0. apply inj_eq. exact E. Qed.
Lemma pow_nz k : ~ inject_Z (fb O) ^ Z.of_nat k == 0.
Proof. intros E. induction k as [|k IH]; [cbn in E; discriminate|]. rewrite qpow_S in E. apply Qmult_integral in E as [E|E]; [now apply b0_nz|auto]. Qed.
Lemma div_coef_ok k res : (1 <= k <= deg)%nat -> length res = k -> (forall i, (i < k)%nat -> inject_Z (nth i res 0%Z) == c i * inject_Z (fb O) ^ Z.of_nat (S i)) ->
  inject_Z (div_coef k a b res) == c k * inject_Z (fb O) ^ Z.of_nat (S k).
Proof.
  intros Hk L H. destruct Ra as [_ Na]. destruct Rb as [_ Nb]. unfold div_coef. pose proof (div_inner_ok k 1 k b res 1 0) as D. destruct (div_inner 1 k k b res 1 0) as [acc bz]. destruct D as [D1 D2]. rewrite inject_Z_plus, inject_Z_mult, D1, D2, Nb, Na by lia. change (inject_Z 1) with 1. change (inject_Z 0) with 0.
  change (inject_Z (fa k)) with (to_q fa k). rewrite <- (C k). unfold conv. rewrite qsum_seq_S, Nat.sub_diag.
  rewrite (qsum_ext (fun i => inject_Z (nth (1 + i) b 0%Z) * inject_Z (nth (k - (1 + i)) res 0%Z) * inject_Z (fb O) ^ Z.of_nat i) (fun i => inject_Z (fb O) ^ Z.of_nat k * (to_q fb (S i) * c (k - S i)%nat))).
  - rewrite qsum_scale. unfold to_q at 3. rewrite qpow_S.
    assert (R : qsum (fun i => to_q fb (S i) * c (k - S i)%nat) (seq 0 k) == qsum (fun i => c i * to_q fb (k - i)%nat) (seq 0 k)).
    { assert (G : forall (f : nat -> Q) n, qsum (fun i => f (n - S i)%nat) (seq 0 n) == qsum f (seq 0 n)).
      { intros f. induction n as [|n IHn]; [reflexivity|]. rewrite qsum_seq_head, (qsum_seq_S f). rewrite <- IHn. replace (S n - 1)%nat with n by lia. rewrite Qplus_comm. apply Qplus_comp; [|reflexivity]. apply qsum_ext. intros i Hi. apply in_seq in Hi. replace (S n - S (S i))%nat with (n - S i)%nat by lia. reflexivity. }
      rewrite <- (G (fun i => c i * to_q fb (k - i)%nat) k). apply qsum_ext. intros i Hi. apply in_seq in Hi. replace (k - (k - S i))%nat with (S i) by lia. ring. }
    rewrite R. ring.
  - intros i Hi. apply in_seq in Hi. rewrite Nb by lia. rewrite H by lia. cbn [Nat.add]. replace (S (k - S i)) with (k - i)%nat by lia. unfold to_q.
    assert (P : inject_Z (fb O) ^ Z.of_nat (k - i) * inject_Z (fb O) ^ Z.of_nat i == inject_Z (fb O) ^ Z.of_nat k).
    { replace k with (k - i + i)%nat at 2 by lia. rewrite Nat2Z.inj_add, Qpower_plus by apply b0_nz. reflexivity. }
    rewrite <- P. ring.
Qed.
Lemma div_loop_ok cnt : forall k res, (1 <= k)%nat -> (k + cnt = S deg)%nat -> length res = k -> (forall i, (i < k)%nat -> inject_Z (nth i res 0%Z) == c i * inject_Z (fb O) ^ Z.of_nat (S i)) ->
  length (div_loop cnt k a b res) = S deg /\ forall i, (i <= deg)%nat -> inject_Z (nth i (div_loop cnt k a b res) 0%Z) == c i * inject_Z (fb O) ^ Z.of_nat (S i).
Proof.
  induction cnt as [|cnt IH]; intros k res Hk E L H; cbn [div_loop]; [split; [lia|intros; apply H; lia]|]. apply IH; [lia|lia|rewrite app_length; cbn; lia|].
  intros i Hi. destruct (Nat.eq_dec i k) as [->|N]; [|rewrite app_nth1 by lia; apply H; lia]. rewrite app_nth2 by lia. replace (k - length res)%nat with O by lia. cbn [nth]. apply div_coef_ok; auto. lia.
Qed.
Lemma div_scale_len ten b0 l : forall bz, length (div_scale ten b0 bz l) = length l.
Proof. induction l as [|x l IH]; intros bz; cbn [div_scale length]; auto. Qed.
Lemma div_scale_nth ten b0 l : forall bz k, (k < length l)%nat -> nth k (div_scale ten b0 bz l) 0%Z = (nth k l 0 * ten / (bz * b0 ^ Z.of_nat k))%Z.
Proof.
  induction l as [|x l IH]; intros bz [|k] H; cbn [length] in H; try lia; cbn [div_scale nth]; [now rewrite Z.mul_1_r|]. rewrite IH by lia. f_equal. rewrite Nat2Z.inj_succ, Z.pow_succ_r by lia. ring.
Qed.
Lemma qfloor_div x y : (y <> 0)%Z -> forall q, inject_Z q <= inject_Z x / inject_Z y -> inject_Z x / inject_Z y < inject_Z (q + 1) -> (x / y)%Z = q.
Proof.
  intros Hy q L U. assert (NZ : ~ inject_Z y == 0) by (intros E; apply Hy, inj_eq; exact E).
  destruct (Z_lt_le_dec 0 y) as [P|P].
  - assert (PQ : 0 < inject_Z y) by (change 0 with (inject_Z 0); now rewrite <- Zlt_Qlt).
    apply Qle_shift_div_r in U || idtac. apply (Qmult_le_compat_r _ _ (inject_Z y)) in L; [|apply Qlt_le_weak; auto]. apply (Qmult_lt_r _ _ (inject_Z y) PQ) in U.
    setoid_replace (inject_Z x / inject_Z y * inject_Z y) with (inject_Z x) in L by (field; auto). setoid_replace (inject_Z x / inject_Z y * inject_Z y) with (inject_Z x) in U by (field; auto).
    rewrite <- inject_Z_mult in L, U. rewrite <- Zle_Qle in L. rewrite <- Zlt_Qlt in U. symmetry. apply (Z.div_unique_pos x y q (x - q * y)); lia.
  - assert (Py : (0 < - y)%Z) by lia. assert (PQ : 0 < inject_Z (- y)) by (change 0 with (inject_Z 0); now rewrite <- Zlt_Qlt).
    apply (Qmult_le_compat_r _ _ (inject_Z (- y))) in L; [|apply Qlt_le_weak; auto]. apply (Qmult_lt_r _ _ (inject_Z (- y)) PQ) in U.
    setoid_replace (inject_Z x / inject_Z y * inject_Z (- y)) with (inject_Z (- x)) in L by (rewrite !inject_Z_opp; field; auto). setoid_replace (inject_Z x / inject_Z y * inject_Z (- y)) with (inject_Z (- x)) in U by (rewrite !inject_Z_opp; field; auto).
    rewrite <- inject_Z_mult in L, U. rewrite <- Zle_Qle in L. rewrite <- Zlt_Qlt in U. symmetry. apply (Z.div_unique_neg x y q (x - q * y)); lia.
Qed.
Lemma inj_zpow x k : inject_Z (x ^ Z.of_nat k) == inject_Z x ^ Z.of_nat k.
Proof. induction k as [|k IH]; [reflexivity|]. rewrite qpow_S, <- IH, <- inject_Z_mult. rewrite Nat2Z.inj_succ, Z.pow_succ_r by lia. reflexivity. Qed.
Lemma div_series_ok ten q : (forall k, inject_Z (q k) <= inject_Z ten * c k /\ inject_Z ten * c k < inject_Z (q k + 1)) ->
  exists r, div_series deg ten a b = Ok r /\ repr deg r q.
Proof.
  intros HQ. unfold div_series. assert (Eb : nth 0 b 0%Z = fb O) by (apply Rb; lia). rewrite Eb. destruct (fb O =? 0)%Z eqn:Z0; [apply Z.eqb_eq in Z0; contradiction|]. eexists. split; [reflexivity|].
  destruct (div_loop_ok deg 1 [nth 0 a 0%Z]) as [L N]; auto.
  - intros i Hi. assert (i = O) as -> by lia. cbn [nth]. destruct Ra as [_ Na]. rewrite Na by lia. change (inject_Z (fa O)) with (to_q fa O). rewrite <- C, conv_0. change (Z.of_nat 1) with 1%Z. rewrite Qpower_1_r. reflexivity.
  - split; [rewrite div_scale_len; lia|]. intros k Hk. rewrite div_scale_nth by lia. destruct (HQ k) as [Q1 Q2].
    assert (E : inject_Z (nth k (div_loop deg 1 a b [nth 0 a 0%Z]) 0%Z * ten) / inject_Z (fb O * fb O ^ Z.of_nat k) == inject_Z ten * c k).
    { rewrite !inject_Z_mult, inj_zpow, N by auto. rewrite qpow_S. field. split; [apply pow_nz|apply b0_nz]. }
    apply qfloor_div; rewrite ?E; auto. intros E0. apply Z.mul_eq_0 in E0 as [E0|E0]; [auto|]. apply (pow_nz k). rewrite <- inj_zpow, E0. reflexivity.
Qed.
End div.
Lemma quotient_unique ten a b q q' a' b' : rounded_quotient ten a b q -> rounded_quotient ten a' b' q' -> (forall k, a k = a' k) -> (forall k, b k = b' k) -> forall k, q k = q' k.
Proof.
  intros (B & c & C & H) (B' & c' & C' & H') Ea Eb k.
  assert (E : c k == c' k).
  { apply (conv_cancel (to_q b)); [intros E; apply B, inj_eq; exact E|]. intros n. rewrite C. unfold to_q at 1. rewrite Ea. change (inject_Z (a' n)) with (to_q a' n). rewrite <- C'. apply conv_ext; [reflexivity|]. intros m. unfold to_q. now rewrite Eb. }
  destruct (H k) as [H1 H2]. destruct (H' k) as [H3 H4]. rewrite E in H1, H2.
  assert (X : inject_Z (q k) < inject_Z (q' k + 1)) by (eapply Qle_lt_trans; eauto). assert (Y : inject_Z (q' k) < inject_Z (q k + 1)) by (eapply Qle_lt_trans; eauto). rewrite <- Zlt_Qlt in X, Y. lia.
Qed.
