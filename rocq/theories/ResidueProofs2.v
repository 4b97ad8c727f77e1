(** The lists of coefficients and the division. *)
From Coq Require Import QArith Qfield Qpower Lqa Qround.
From Verif Require Import Common IntegSpec IntegMath IntegProofs DecompProofs DecompProofs4 Series ZMat HermiteProofs Piped ExpSpec ExpProofs ExpProofs2 Residue ResidueSpec ResidueProofs.
Open Scope Q_scope.

Definition zser (l : list Z) : ser := fun k => inject_Z (nth k l 0%Z).
(** ((1+s)^d - 1)/s *)
Definition gser (d : Z) : ser := fun k => bser d (S k).
Lemma absorb_div N k : (binom N k * (Z.of_nat N - Z.of_nat k) / (Z.of_nat k + 1) = binom N (S k))%Z.
Proof. pose proof (binom_absorb N k) as A. replace (binom N k * (Z.of_nat N - Z.of_nat k))%Z with (binom N (S k) * (Z.of_nat k + 1))%Z by nia. apply Z.div_mul. lia. Qed.
Lemma den_loop_nth N k : forall j i, (i < k)%nat -> nth i (den_loop k (Z.of_nat j) (binom N j) (Z.of_nat N)) 0%Z = binom N (S (j + i)).
Proof.
  induction k as [|k IH]; intros j i Hi; [lia|]. cbn [den_loop]. rewrite absorb_div. destruct i as [|i]; cbn [nth]; [now rewrite Nat.add_0_r|]. replace (Z.of_nat j + 1)%Z with (Z.of_nat (S j)) by lia. rewrite IH by lia. f_equal. lia.
Qed.
Lemma num_loop_nth N k : forall j i, (i < k)%nat -> nth i (num_loop k (Z.of_nat (S j)) (binom N j) (Z.of_nat N)) 0%Z = binom N (S (j + i)).
Proof.
  induction k as [|k IH]; intros j i Hi; [lia|]. cbn [num_loop]. replace (binom N j * (Z.of_nat N + 1 - Z.of_nat (S j)) / Z.of_nat (S j))%Z with (binom N j * (Z.of_nat N - Z.of_nat j) / (Z.of_nat j + 1))%Z by (f_equal; [f_equal|]; lia). rewrite absorb_div.
  destruct i as [|i]; cbn [nth]; [now rewrite Nat.add_0_r|]. replace (Z.of_nat (S j) + 1)%Z with (Z.of_nat (S (S j))) by lia. rewrite IH by lia. f_equal. lia.
Qed.
Lemma binom_1 N : binom N 1 = Z.of_nat N.
Proof. induction N as [|N IH]; [reflexivity|]. cbn [binom]. rewrite IH, binom_0. lia. Qed.
Lemma den_factor_ok m d k : (0 <= d)%Z -> (k <= m)%nat -> zser (den_factor m d) k == gser d k.
Proof.
  intros Hd Hk. unfold zser, gser. rewrite <- (Z2Nat.id d Hd). set (N := Z.to_nat d). rewrite bser_binom. unfold den_factor. destruct k as [|k]; cbn [nth]; [now rewrite binom_1|]. pose proof (den_loop_nth N m 1 k ltac:(lia)) as E. rewrite binom_1 in E. change (Z.of_nat 1) with 1%Z in E. rewrite E. reflexivity.
Qed.
Lemma power_coeffs_ok m d k : (0 <= d)%Z -> (k <= m)%nat -> zser (power_coeffs m d) k == bser d k.
Proof.
  intros Hd Hk. unfold zser. rewrite <- (Z2Nat.id d Hd). set (N := Z.to_nat d). rewrite bser_binom. unfold power_coeffs. destruct k as [|k]; cbn [nth]; [now rewrite binom_0|]. pose proof (num_loop_nth N m 0 k ltac:(lia)) as E. rewrite binom_0 in E. change (Z.of_nat 1) with 1%Z in E. rewrite E. reflexivity.
Qed.
Lemma inj_zsum n f : inject_Z (zsum n f) == qsum (fun i => inject_Z (f i)) (seq 0 n).
Proof. induction n as [|n IH]; [reflexivity|]. rewrite qsum_seq_S, <- IH. cbn [zsum]. rewrite inject_Z_plus. reflexivity. Qed.
Lemma mul_trunc_ok m D V k : (k <= m)%nat -> zser (mul_trunc m D V) k == conv (zser D) (zser V) k.
Proof.
  intros Hk. unfold zser at 1, mul_trunc. rewrite nth_map_seq by lia. rewrite inj_zsum. unfold conv. apply qsum_ext. intros i _. unfold zser. now rewrite inject_Z_mult.
Qed.
Lemma zero_power m : zser (1 :: repeat 0 m)%Z ~= sone.
Proof. intros [|k]; unfold zser; cbn [nth sone]; [reflexivity|]. rewrite nth_repeat. reflexivity. Qed.
Lemma denominator_ok m ds : ds <> [] -> Forall (fun d => (0 <= d)%Z) ds -> forall k, (k <= m)%nat -> zser (denominator_coeffs m ds) k == product (map gser ds) k.
Proof.
  intros NE F. destruct ds as [|d ds]; [contradiction|]. cbn [denominator_coeffs map product fold_right]. fold (product (map gser ds)). pose proof (Forall_inv F) as F1. apply Forall_inv_tail in F. clear NE.
  assert (G : forall D f, (forall k, (k <= m)%nat -> zser D k == f k) -> forall k, (k <= m)%nat -> zser (fold_left (fun D nn => mul_trunc m D (den_factor m nn)) ds D) k == conv f (product (map gser ds)) k).
  { induction ds as [|e ds IH]; intros D f HD k Hk; cbn [fold_left map product fold_right]; [rewrite conv_one_r; auto|]. fold (product (map gser ds)).
    rewrite (IH (Forall_inv_tail F) _ (conv f (gser e))); [apply conv_assoc| |exact Hk]. intros i Hi. rewrite mul_trunc_ok by exact Hi. apply conv_ext_upto; intros l Hl; [apply HD; lia|]. apply den_factor_ok; [exact (Forall_inv F)|lia]. }
  intros k Hk. apply G; [|exact Hk]. intros i Hi. now apply den_factor_ok.
Qed.
(** The division: N = q D up to degree m. *)
Section Division.
Context (N D : list Z) (q : ser) (m : nat) (D0 : nth 0 D 0%Z <> 0%Z).
Context (HQ : forall k, (k <= m)%nat -> conv q (zser D) k == zser N k).
Notation z := (inject_Z (nth 0 D 0%Z)).
Lemma qstep j : (j <= m)%nat -> q j * z == zser N j - qsum (fun i => q (j - (i + 1))%nat * zser D (i + 1)%nat) (seq 0 j).
Proof.
  intros Hj. rewrite <- (HQ j Hj), conv_comm. unfold conv. rewrite qsum_seq_head. rewrite Nat.sub_0_r. rewrite (qsum_ext (fun i => zser D (S i) * q (j - S i)%nat) (fun i => q (j - (i + 1))%nat * zser D (i + 1)%nat)); [unfold zser; ring|]. intros i _. rewrite Nat.add_1_r. ring.
Qed.
Definition div_inv (T Dm : list Z) (temp : Z) : Prop :=
  length Dm = length T /\ (1 <= length T)%nat /\ inject_Z temp == z ^ Z.of_nat (length T - 1) /\
  (forall i, (i < length T)%nat -> zser T i == q i * z ^ Z.of_nat (S i)) /\
  (forall i, (1 <= i)%nat -> (i < length T)%nat -> zser Dm i == zser D i * z ^ Z.of_nat (i - 1)).
Lemma z_nz : ~ z == 0.
Proof. intros E. apply D0. apply inject_Z_injective. exact E. Qed.
Lemma zser_app_l l l' i : (i < length l)%nat -> zser (l ++ l') i = zser l i.
Proof. intros H. unfold zser. now rewrite app_nth1. Qed.
Lemma zser_app_last l x : zser (l ++ [x]) (length l) = inject_Z x.
Proof. unfold zser. rewrite app_nth2, Nat.sub_diag by lia. reflexivity. Qed.
Lemma div_loop_ok k : forall T Dm temp, (length T + k = S m)%nat -> div_inv T Dm temp ->
  exists T' temp' Dm', div_loop k N D T Dm temp = (T', temp') /\ length T' = S m /\ div_inv T' Dm' temp'.
Proof.
  induction k as [|k IH]; intros T Dm temp L I; cbn [div_loop].
  - exists T, temp, Dm. split; [reflexivity|]. split; [lia|exact I].
  - destruct I as (LD & LT & ET & HT & HD). set (j := length T) in *.
    match goal with |- context [div_loop k N D (T ++ [?a]) (Dm ++ [?b]) ?c] => set (temp1 := c); set (dj := b); pose (t := a); change a with t end.
    assert (E1 : inject_Z temp1 == z ^ Z.of_nat j). { unfold temp1. rewrite inject_Z_mult, ET. replace j with (S (j - 1)) at 2 by lia. rewrite Qpow_S. ring. }
    assert (EJ : inject_Z dj == zser D j * z ^ Z.of_nat (j - 1)) by (unfold dj; rewrite inject_Z_mult, ET; reflexivity).
    assert (HD1 : forall i, (1 <= i)%nat -> (i < S j)%nat -> zser (Dm ++ [dj]) i == zser D i * z ^ Z.of_nat (i - 1)).
    { intros i Hi Hj. destruct (Nat.eq_dec i j) as [->|NE]; [replace (zser (Dm ++ [dj]) j) with (inject_Z dj) by (rewrite <- LD; symmetry; apply zser_app_last); exact EJ|]. rewrite zser_app_l by lia. apply HD; lia. }
    assert (HT1 : inject_Z t == q j * z ^ Z.of_nat (S j)).
    { unfold t. change (temp * nth 0 D 0)%Z with temp1. change (nth j D 0 * temp)%Z with dj. rewrite <- Z.add_opp_r, inject_Z_plus, inject_Z_opp, inject_Z_mult, E1, inj_zsum. fold (zser N j). rewrite (Qpow_S z j).
      setoid_replace (q j * (z * z ^ Z.of_nat j)) with (z ^ Z.of_nat j * (q j * z)) by ring. rewrite (qstep j) by lia.
      rewrite (qsum_ext _ (fun i => z ^ Z.of_nat j * (q (j - (i + 1))%nat * zser D (i + 1)%nat))).
      - rewrite qsum_scale. ring.
      - intros i Hi. apply in_seq in Hi. rewrite inject_Z_mult. fold (zser T (j - (i + 1))%nat) (zser (Dm ++ [dj]) (i + 1)%nat). rewrite HT, HD1 by lia.
        replace (S (j - (i + 1))) with (j - i)%nat by lia. replace (i + 1 - 1)%nat with i by lia. replace j with (j - i + i)%nat at 3 by lia. rewrite Qpow_add. ring. }
    apply (IH (T ++ [t]) (Dm ++ [dj]) temp1); [rewrite app_length; cbn [length]; lia|]. unfold div_inv. rewrite !app_length. cbn [length]. split; [lia|]. split; [lia|]. split; [rewrite E1; fold j; replace (j + 1 - 1)%nat with j by lia; reflexivity|]. split.
    + intros i Hi. fold j in Hi. destruct (Nat.eq_dec i j) as [->|NE]; [replace (zser (T ++ [t]) j) with (inject_Z t) by (symmetry; apply zser_app_last); exact HT1|]. rewrite zser_app_l by (fold j; lia). apply HT. lia.
    + intros i Hi Hj. apply HD1; fold j in Hj; lia.
Qed.
Context (HN : nth 0 N 0%Z = 1%Z).
Lemma division_ok : exists T temp, div_loop m N D [nth 0 N 0%Z] [nth 0 D 0%Z] 1 = (T, temp) /\ (temp * nth 0 D 0 = nth 0 D 0 ^ Z.of_nat (S m))%Z /\ inject_Z (nth m T 0%Z) == q m * inject_Z (temp * nth 0%nat D 0%Z).
Proof.
  destruct (div_loop_ok m [nth 0 N 0%Z] [nth 0 D 0%Z] 1) as (T & temp & Dm & E & L & (LD & LT & ET & HT & _)); [reflexivity| |].
  - split; [reflexivity|]. split; [cbn; lia|]. split; [reflexivity|]. cbn [length]. split; [|intros i; lia]. intros i Hi. assert (i = O) as -> by lia. unfold zser at 1. cbn [nth]. pose proof (HQ 0 ltac:(lia)) as H0. rewrite conv_0 in H0. fold (zser N 0%nat). rewrite <- H0. change (z ^ Z.of_nat 1) with z. reflexivity.
  - exists T, temp. split; [exact E|]. assert (EZ : inject_Z (temp * nth 0%nat D 0%Z) == z ^ Z.of_nat (S m)) by (rewrite inject_Z_mult, ET, L, Qpow_S; replace (S m - 1)%nat with m by lia; ring). split.
    + apply inject_Z_injective. rewrite inj_pow. exact EZ.
    + rewrite EZ. apply HT. lia.
Qed.
End Division.
