(** Every non-singular integer matrix has an LLL-reduced basis (with factor 1): Gram-Schmidt
    vectors, Gram determinants, size reduction, exchange of two rows. *)
From Coq Require Import QArith Qround Qpower Qfield Lqa.
From Verif Require Import Common ZMat Hermite HermiteProofs Det DetProofs Piped PipedSpec PipedProofs PipedProofs3 OmegaSpec OmegaProofs2 OmegaProofs3 OmegaProofs4.
Open Scope Z_scope.

Fixpoint qprod (n : nat) (f : nat -> Q) : Q := match n with O => 1%Q | S m => (qprod m f * f m)%Q end.
Lemma qprod_ext n f h : (forall i, (i < n)%nat -> (f i == h i)%Q) -> (qprod n f == qprod n h)%Q.
Proof. induction n as [|n IH]; intros H; cbn [qprod]; [reflexivity|]. rewrite IH by (intros; apply H; lia). rewrite H by lia. reflexivity. Qed.
Lemma qprod_pos n f : (forall i, (i < n)%nat -> (0 < f i)%Q) -> (0 < qprod n f)%Q.
Proof. induction n as [|n IH]; intros H; cbn [qprod]; [reflexivity|]. assert (0 < qprod n f)%Q by (apply IH; intros; apply H; lia). assert (0 < f n)%Q by (apply H; lia). nra. Qed.
Lemma inj_pos z : (0 < inject_Z z)%Q <-> 0 < z.
Proof. change 0%Q with (inject_Z 0). rewrite <- Zlt_Qlt. reflexivity. Qed.
Lemma inj_eq a b : (inject_Z a == inject_Z b)%Q -> a = b.
Proof. intros H. unfold Qeq, inject_Z in H. cbn in H. lia. Qed.

Section Gram.
Context (n : nat).
Definition gram (B : zmat) : zmat := fun i j => zsum n (fun c => B i c * B j c).
(** Gram-Schmidt vectors of the first k rows. *)
Definition gs (k : nat) (B : zmat) (g mu : nat -> nat -> Q) : Prop :=
  (forall i c, (i < k)%nat -> (c < n)%nat -> inject_Z (B i c) == g i c + sumq i (fun j => mu i j * g j c))%Q /\
  (forall i j, (i < j)%nat -> (j < k)%nat -> dot n g i j == 0)%Q.
Lemma gs_le k k' B g mu : (k <= k')%nat -> gs k' B g mu -> gs k B g mu.
Proof. intros H [A C]. split; intros; [apply A|apply C]; lia. Qed.
Lemma gs_row k B g mu i c : gs k B g mu -> (i < k)%nat -> (c < n)%nat -> (inject_Z (B i c) == sumq k (fun l => M mu i l * g l c))%Q.
Proof.
  intros [EL _] Hi Hc. rewrite EL by auto. rewrite (sumq_tail k (S i)) by (try lia; intros l Hl _; rewrite M_up by lia; ring). cbn [sumq]. rewrite M_diag.
  rewrite (sumq_ext i (fun l => M mu i l * g l c)%Q (fun l => mu i l * g l c)%Q) by (intros l Hl; rewrite M_low by auto; reflexivity). ring.
Qed.
Lemma gs_gram k B g mu i j : gs k B g mu -> (i < k)%nat -> (j < k)%nat -> (inject_Z (gram B i j) == sumq k (fun l => M mu i l * (dot n g l l * M mu j l)))%Q.
Proof.
  intros G Hi Hj. unfold gram. rewrite <- sumq_inj. rewrite (sumq_ext n _ (fun c => sumq k (fun l => sumq k (fun p => M mu i l * M mu j p * (g l c * g p c)))))%Q.
  - rewrite sumq_swap. apply sumq_ext. intros l Hl. rewrite sumq_swap. rewrite (sumq_single k _ l Hl); [rewrite sumq_scal; unfold dot; ring|]. intros p Hp N. rewrite sumq_scal. fold (dot n g l p). destruct G as [_ OR]. destruct (Nat.lt_ge_cases l p) as [X|X]; [rewrite OR by auto|rewrite dot_sym, OR by lia]; ring.
  - intros c Hc. rewrite inject_Z_mult, (gs_row k B g mu i c G Hi Hc), (gs_row k B g mu j c G Hj Hc). rewrite (Qmult_comm (sumq k _)), <- sumq_scal. apply sumq_ext. intros l Hl. rewrite Qmult_comm, <- sumq_scal. apply sumq_ext. intros; ring.
Qed.
Lemma zprod_q k (e : nat -> Z) (f : nat -> Q) N : (forall l, (l < k)%nat -> (inject_Z N * f l == inject_Z (e l))%Q) -> (inject_Z (zprod k e) == inject_Z (N ^ Z.of_nat k) * qprod k f)%Q.
Proof.
  induction k as [|k IH]; intros H; cbn [zprod qprod]; [reflexivity|]. rewrite inject_Z_mult, IH by (intros; apply H; lia). rewrite <- (H k) by lia. rewrite Nat2Z.inj_succ, Z.pow_succ_r, inject_Z_mult by lia. ring.
Qed.
Theorem gram_det k B g mu : gs k B g mu -> (inject_Z (det k (gram B)) == qprod k (fun l => dot n g l l))%Q.
Proof.
  intros G. destruct (common2 k k (M mu)) as (N1 & P1 & H1). destruct (common1 k (fun l => dot n g l l)) as (N2 & P2 & H2). unfold integral_at in H1, H2.
  set (T := fun i l => Qfloor (inject_Z N1 * M mu i l)). set (e := fun l => Qfloor (inject_Z N2 * dot n g l l)).
  assert (DT : det k T = N1 ^ Z.of_nat k).
  { rewrite det_lower.
    - rewrite (zprod_ext k _ (fun _ => N1)) by (intros i Hi; unfold T; rewrite M_diag, Qmult_1_r; apply Qfloor_Z). apply zprod_const.
    - intros i j Hij Hj. unfold T. rewrite M_up by auto. rewrite Qmult_0_r. reflexivity. }
  assert (EQ : meq k k (mmul k T (mmul k (fun i j => e i * delta i j) (fun i j => T j i))) (fun i j => (N1 * N2 * N1) * gram B i j)).
  { intros i j Hi Hj. apply inj_eq. rewrite inject_Z_mult, (gs_gram k B g mu i j G Hi Hj). unfold mmul at 1. rewrite <- sumq_inj, <- sumq_scal. apply sumq_ext. intros l Hl.
    assert (X : mmul k (fun i0 j0 => e i0 * delta i0 j0) (fun i0 j0 => T j0 i0) l j = e l * T j l). { unfold mmul. rewrite (zsum_single k _ l Hl) by (intros p _ N; rewrite delta_neq by auto; ring). rewrite delta_eq. ring. }
    rewrite X, !inject_Z_mult. unfold T, e. rewrite <- (H1 i l Hi Hl), <- (H1 j l Hj Hl), <- (H2 l Hl). ring. }
  pose proof (det_ext k _ _ EQ) as DE. rewrite !det_mul, (det_tr k T), DT, det_scale in DE. rewrite (det_lower k (fun i j => e i * delta i j)) in DE by (intros i j Hij _; rewrite delta_neq by lia; ring).
  rewrite (zprod_ext k _ e) in DE by (intros i _; rewrite delta_eq; ring). rewrite !Z.pow_mul_l in DE. assert (PN : 0 < N1 ^ Z.of_nat k) by (apply Z.pow_pos_nonneg; lia). assert (PN2 : 0 < N2 ^ Z.of_nat k) by (apply Z.pow_pos_nonneg; lia).
  assert (DE2 : zprod k e = N2 ^ Z.of_nat k * det k (gram B)) by (set (a := N1 ^ Z.of_nat k) in *; apply (Z.mul_reg_l _ _ (a * a)); [nia|]; rewrite <- Z.mul_assoc; rewrite <- Z.mul_assoc in DE; etransitivity; [|etransitivity; [exact DE|]]; ring).
  pose proof (zprod_q k e (fun l => dot n g l l) N2 (fun l Hl => H2 l Hl)) as ZQ. rewrite DE2, inject_Z_mult in ZQ. assert (PQ : (0 < inject_Z (N2 ^ Z.of_nat k))%Q) by now apply inj_pos.
  apply (Qmult_inj_l _ _ (inject_Z (N2 ^ Z.of_nat k))); [intros Z0; rewrite Z0 in PQ; discriminate|exact ZQ].
Qed.
Lemma gram_nonzero k B : (k <= n)%nat -> det n B <> 0 -> det k (gram B) <> 0.
Proof.
  intros Hk D0 H. destruct (det_zero_kernel k (gram B) H) as (v & (i & Hi & Ni) & Hv).
  set (x := fun i => if (i <? k)%nat then v i else 0). set (w := fun c => zsum k (fun i => v i * B i c)).
  assert (S0 : zsum n (fun c => w c * w c) = 0).
  { rewrite (zsum_ext n _ (fun c => zsum k (fun j => v j * (w c * B j c)))) by (intros c _; unfold w at 1; rewrite Z.mul_comm, <- zsum_scal; apply zsum_ext; intros; ring). rewrite zsum_swap. apply zsum_zero. intros j Hj. rewrite zsum_scal.
    assert (X : zsum n (fun c => w c * B j c) = 0); [|rewrite X; ring]. rewrite <- (Hv j Hj). unfold w. rewrite (zsum_ext n _ (fun c => zsum k (fun i => v i * (B i c * B j c)))) by (intros c _; rewrite Z.mul_comm, <- zsum_scal; apply zsum_ext; intros; ring). rewrite zsum_swap. apply zsum_ext. intros a Ha. rewrite zsum_scal. reflexivity. }
  assert (W0 : forall c, (c < n)%nat -> w c = 0).
  { assert (GE : forall m, (forall c, (c < m)%nat -> w c * w c <= zsum m (fun c => w c * w c)) /\ 0 <= zsum m (fun c => w c * w c)). { induction m as [|m [IH1 IH2]]; cbn [zsum]; [split; [lia|lia]|]. split; [|nia]. intros c Hc. destruct (Nat.eq_dec c m) as [->|N]; [lia|]. specialize (IH1 c ltac:(lia)). nia. }
    intros c Hc. pose proof (proj1 (GE n) c Hc). nia. }
  apply Ni. assert (X : x i = 0); [|unfold x in X; rewrite (proj2 (Nat.ltb_lt i k) Hi) in X; exact X]. apply (left_kernel n B x D0); [|lia]. intros c Hc. rewrite <- (W0 c Hc). unfold w.
  clear -Hk. revert Hk. assert (G : forall m, (k <= m)%nat -> zsum m (fun j => x j * B j c) = zsum k (fun i => v i * B i c)); [|apply G]. induction m as [|m IH]; intros Hm; [replace k with 0%nat by lia; reflexivity|].
  destruct (Nat.eq_dec k (S m)) as [->|N]; [apply zsum_ext; intros j Hj; unfold x; rewrite (proj2 (Nat.ltb_lt j (S m)) Hj); reflexivity|]. cbn [zsum]. rewrite IH by lia. unfold x at 1. destruct (Nat.ltb_spec m k); [lia|ring].
Qed.
Lemma qprod_nz k f : ~ (qprod k f == 0)%Q -> forall i, (i < k)%nat -> ~ (f i == 0)%Q.
Proof. induction k as [|k IH]; intros H i Hi E; [lia|]. cbn [qprod] in H. destruct (Nat.eq_dec i k) as [->|N]; [apply H; rewrite E; ring|]. refine (IH _ i ltac:(lia) E). intros Z0. apply H. rewrite Z0. ring. Qed.
Lemma gs_pos k B g mu : (k <= n)%nat -> det n B <> 0 -> gs k B g mu -> forall i, (i < k)%nat -> (0 < dot n g i i)%Q.
Proof.
  intros Hk D0 G i Hi. pose proof (dot_pos n g i) as P. assert (N : ~ (dot n g i i == 0)%Q); [|apply Qle_lteq in P as [P|P]; [exact P|destruct N; now symmetry]].
  apply (qprod_nz k (fun l => dot n g l l)); [|exact Hi]. rewrite <- (gram_det k B g mu G). intros X. apply (gram_nonzero k B Hk D0). now apply inj_eq.
Qed.
Lemma gs_exists B : det n B <> 0 -> forall k, (k <= n)%nat -> {gm : (nat -> nat -> Q) * (nat -> nat -> Q) | gs k B (fst gm) (snd gm)}.
Proof.
  intros D0. induction k as [|k IH]; intros Hk; [exists ((fun _ _ => 0%Q), (fun _ _ => 0%Q)); split; intros; lia|].
  destruct (IH ltac:(lia)) as [[g mu] G]. cbn [fst snd] in G. pose proof (gs_pos k B g mu ltac:(lia) D0 G) as PO.
  set (m' := fun j => (sumq n (fun c => inject_Z (B k c) * g j c) / dot n g j j)%Q). set (r := fun c => (inject_Z (B k c) - sumq k (fun j => m' j * g j c))%Q).
  exists ((fun i c => if (i =? k)%nat then r c else g i c), (fun i j => if (i =? k)%nat then m' j else mu i j)). cbn [fst snd]. set (g' := fun i c => if (i =? k)%nat then r c else g i c).
  assert (E1 : forall i c, (i < k)%nat -> g' i c = g i c) by (intros i c Hi; unfold g'; now rewrite (proj2 (Nat.eqb_neq i k)) by lia). assert (E2 : forall c, g' k c = r c) by (intros c; unfold g'; now rewrite Nat.eqb_refl).
  split.
  - intros i c Hi Hc. destruct (Nat.eqb_spec i k) as [->|N].
    + change (if (k =? k)%nat then r c else g k c) with (g' k c). rewrite E2. rewrite (sumq_ext k _ (fun j => m' j * g j c)%Q) by (intros j Hj; change (if (j =? k)%nat then r c else g j c) with (g' j c); rewrite E1 by auto; reflexivity). unfold r. ring.
    + destruct G as [EL _]. rewrite (EL i c) by (auto; lia). rewrite (E1 i c) by lia. apply Qplus_comp; [reflexivity|]. apply sumq_ext. intros j Hj. change (if (j =? k)%nat then r c else g j c) with (g' j c). rewrite E1 by lia. reflexivity.
  - intros i j Hij Hj. unfold dot. destruct (Nat.eq_dec j k) as [->|N].
    + rewrite (sumq_ext n _ (fun c => inject_Z (B k c) * g i c + -1 * sumq k (fun l => m' l * (g l c * g i c)))%Q).
      * rewrite sumq_add, sumq_scal, sumq_swap. rewrite (sumq_single k _ i Hij).
        -- rewrite sumq_scal. fold (dot n g i i). unfold m'. specialize (PO i Hij). field. intros Z0. rewrite Z0 in PO. discriminate.
        -- intros l Hl X. rewrite sumq_scal. fold (dot n g l i). destruct G as [_ OR]. destruct (Nat.lt_ge_cases l i) as [Y|Y]; [rewrite OR by auto|rewrite dot_sym, OR by lia]; ring.
      * intros c Hc. change (if (i =? k)%nat then r c else g i c) with (g' i c). change (if (k =? k)%nat then r c else g k c) with (g' k c). rewrite E1, E2 by auto. unfold r. setoid_replace (sumq k (fun l => m' l * (g l c * g i c)))%Q with (g i c * sumq k (fun l => m' l * g l c))%Q; [ring|]. rewrite <- sumq_scal. apply sumq_ext. intros; ring.
    + destruct G as [_ OR]. rewrite <- (OR i j Hij) by lia. apply sumq_ext. intros c Hc. change (if (i =? k)%nat then r c else g i c) with (g' i c). change (if (j =? k)%nat then r c else g j c) with (g' j c). rewrite !E1 by lia. reflexivity.
Qed.
(** Size reduction. *)
Definition rnd (q : Q) : Z := Qfloor (q + (1 # 2)).
Lemma rnd_ok q : (- (1 # 2) <= q - inject_Z (rnd q) <= 1 # 2)%Q.
Proof. unfold rnd. pose proof (Qfloor_le (q + (1 # 2))). pose proof (Qlt_floor (q + (1 # 2))) as X. rewrite inject_Z_plus in X. change (inject_Z 1) with 1%Q in X. lra. Qed.
Lemma size_row mu i : forall m, (m <= i)%nat -> {t : nat -> Z | (forall j, (j < i - m)%nat -> t j = 0) /\ forall l, (i - m <= l)%nat -> (l < i)%nat -> (- (1 # 2) <= mu i l + sumq i (fun j => inject_Z (t j) * M mu j l) <= 1 # 2)%Q}.
Proof.
  induction m as [|m IH]; intros Hm; [exists (fun _ => 0); split; [reflexivity|intros; lia]|]. destruct (IH ltac:(lia)) as (t & T0 & TB). set (p := (i - S m)%nat). set (s := (mu i p + sumq i (fun j => inject_Z (t j) * M mu j p))%Q).
  set (t' := fun j => if (j =? p)%nat then - rnd s else t j). exists t'. split; [intros j Hj; unfold t'; rewrite (proj2 (Nat.eqb_neq j p)) by lia; apply T0; lia|].
  assert (E : forall l, (sumq i (fun j => inject_Z (t' j) * M mu j l) == sumq i (fun j => inject_Z (t j) * M mu j l) - inject_Z (rnd s) * M mu p l)%Q).
  { intros l. rewrite (sumq_ext i _ (fun j => inject_Z (t j) * M mu j l + (if (j =? p)%nat then - inject_Z (rnd s) * M mu p l else 0)))%Q.
    - rewrite sumq_add. rewrite (sumq_single i (fun j => if (j =? p)%nat then _ else _)%Q p) by (try lia; intros j _ N; rewrite (proj2 (Nat.eqb_neq j p)) by auto; reflexivity). rewrite Nat.eqb_refl. ring.
    - intros j Hj. unfold t'. destruct (Nat.eqb_spec j p) as [->|N]; [rewrite (T0 p) by lia; rewrite inject_Z_opp; change (inject_Z 0) with 0%Q; ring|ring]. }
  intros l Hl Hi. rewrite E. destruct (Nat.eq_dec l p) as [->|N].
  - rewrite M_diag. pose proof (rnd_ok s). unfold s in *. lra.
  - rewrite (M_up mu p l) by lia. pose proof (TB l ltac:(lia) Hi). lra.
Qed.
Definition size_reduced (mu : nat -> nat -> Q) : Prop := forall i j, (j < i)%nat -> (i < n)%nat -> (- (1 # 2) <= mu i j <= 1 # 2)%Q.
Definition unimodular (U : zmat) : Prop := det n U * det n U = 1.
Lemma size_reduce B g mu : gs n B g mu -> {U : zmat | unimodular U /\ exists mu', gs n (mmul n U B) g mu' /\ size_reduced mu'} .
Proof.
  intros G. set (t := fun i => proj1_sig (size_row mu i i (Nat.le_refl i))). assert (HT : forall i l, (l < i)%nat -> (- (1 # 2) <= mu i l + sumq i (fun j => inject_Z (t i j) * M mu j l) <= 1 # 2)%Q).
  { intros i l Hl. unfold t. destruct (size_row mu i i (Nat.le_refl i)) as (t0 & TA & TB). cbn [proj1_sig]. apply TB; lia. }
  clearbody t. exists (fun i j => if (j <? i)%nat then t i j else delta i j). split.
  - unfold unimodular. rewrite det_lower by (intros i j Hij _; destruct (Nat.ltb_spec j i); [lia|]; rewrite delta_neq by lia; reflexivity). rewrite (zprod_ext n _ (fun _ => 1)) by (intros i _; rewrite Nat.ltb_irrefl; apply delta_eq). rewrite zprod_const, Z.pow_1_l by lia. reflexivity.
  - exists (fun i l => (mu i l + sumq i (fun j => inject_Z (t i j) * M mu j l))%Q). split; [|intros i j Hj Hi; now apply HT]. split; [|exact (proj2 G)].
    intros i c Hi Hc. assert (E : mmul n (fun i j => if (j <? i)%nat then t i j else delta i j) B i c = B i c + zsum i (fun j => t i j * B j c)).
    { unfold mmul. assert (X : forall m, (i < m)%nat -> zsum m (fun k => (if (k <? i)%nat then t i k else delta i k) * B k c) = B i c + zsum i (fun j => t i j * B j c)); [|apply X, Hi].
      induction m as [|m IH]; intros Hm; [lia|]. cbn [zsum]. destruct (Nat.eq_dec i m) as [->|N]; [rewrite Nat.ltb_irrefl, delta_eq; rewrite (zsum_ext m _ (fun j => t m j * B j c)) by (intros j Hj; rewrite (proj2 (Nat.ltb_lt j m) Hj); reflexivity); ring|].
      rewrite IH by lia. destruct (Nat.ltb_spec m i); [lia|]. rewrite delta_neq by auto. ring. }
    rewrite E, inject_Z_plus. rewrite <- (sumq_inj i). rewrite (proj1 G i c Hi Hc).
    rewrite (sumq_ext i (fun j => inject_Z (t i j * B j c)) (fun j => sumq i (fun l => inject_Z (t i j) * M mu j l * g l c))%Q).
    + rewrite sumq_swap. rewrite (sumq_ext i (fun j => (mu i j + sumq i (fun j0 => inject_Z (t i j0) * M mu j0 j)) * g j c)%Q (fun l => mu i l * g l c + sumq i (fun j => inject_Z (t i j) * M mu j l * g l c))%Q); [rewrite sumq_add; ring|].
      intros l Hl. rewrite Qmult_plus_distr_l. apply Qplus_comp; [reflexivity|]. rewrite Qmult_comm, <- sumq_scal. apply sumq_ext. intros; ring.
    + intros j Hj. rewrite inject_Z_mult. rewrite (gs_row i B g mu j c (gs_le i n B g mu ltac:(lia) G) Hj Hc). rewrite <- sumq_scal. apply sumq_ext. intros; ring.
Qed.
(** Exchange of rows i and i+1. *)
Definition tr (i k : nat) : nat := if (k =? i)%nat then S i else if (k =? S i)%nat then i else k.
Definition exch (i : nat) (B : zmat) : zmat := fun a c => B (tr i a) c.
Lemma exch_gram_det i k B : (S i < n)%nat -> k <> S i -> det k (gram (exch i B)) = det k (gram B).
Proof.
  intros Hi Hk. destruct (Nat.lt_ge_cases k (S i)) as [X|X].
  - apply det_ext. intros a b Ha Hb. unfold gram, exch, tr. rewrite !(proj2 (Nat.eqb_neq _ _)) by lia. reflexivity.
  - assert (Y : (S i < k)%nat) by lia. set (A := gram B). set (A1 := fun a b => if (a =? i)%nat then A (S i) b else if (a =? S i)%nat then A i b else A a b). assert (D1 : det k A1 = - det k A) by (apply det_swap; lia).
    set (A2 := fun a b => if (a =? i)%nat then A1 b (S i) else if (a =? S i)%nat then A1 b i else A1 b a). assert (D2 : det k A2 = - det k A1) by (rewrite <- (det_tr k A1); apply (det_swap k (fun a b => A1 b a)); lia).
    transitivity (det k (fun a b => A2 b a)); [|rewrite det_tr; lia]. apply det_ext. intros a b Ha Hb. unfold A2, A1, A, gram, exch, tr. destruct (Nat.eqb_spec a i), (Nat.eqb_spec b i), (Nat.eqb_spec a (S i)), (Nat.eqb_spec b (S i)); try lia; reflexivity.
Qed.
Lemma exch_lower i B g mu : (S i < n)%nat -> det n B <> 0 -> gs n B g mu -> (dot n g (S i) (S i) + mu (S i) i * mu (S i) i * dot n g i i < dot n g i i)%Q -> det (S i) (gram (exch i B)) < det (S i) (gram B).
Proof.
  intros Hi D0 G LT. pose proof (gs_le (S i) n B g mu ltac:(lia) G) as G1. pose proof (gs_pos n B g mu (Nat.le_refl n) D0 G) as PO.
  set (g' := fun a c => if (a =? i)%nat then (g (S i) c + mu (S i) i * g i c)%Q else g a c). set (mu' := fun a j => if (a =? i)%nat then mu (S i) j else mu a j).
  assert (E1 : forall a c, (a < i)%nat -> g' a c = g a c) by (intros a c Ha; unfold g'; now rewrite (proj2 (Nat.eqb_neq a i)) by lia). assert (E2 : forall c, g' i c = (g (S i) c + mu (S i) i * g i c)%Q) by (intros c; unfold g'; now rewrite Nat.eqb_refl).
  assert (GE : gs (S i) (exch i B) g' mu').
  { destruct G as [EL OR]. split.
    - intros a c Ha Hc. unfold exch, tr, mu'. destruct (Nat.eqb_spec a i) as [->|N].
      + rewrite E2. rewrite (EL (S i) c) by auto. cbn [sumq]. rewrite (sumq_ext i (fun j => mu (S i) j * g' j c)%Q (fun j => mu (S i) j * g j c)%Q) by (intros j Hj; rewrite E1 by auto; reflexivity). ring.
      + rewrite (proj2 (Nat.eqb_neq a (S i))) by lia. rewrite E1 by lia. rewrite (EL a c) by (auto; lia). apply Qplus_comp; [reflexivity|]. apply sumq_ext. intros j Hj. rewrite E1 by lia. reflexivity.
    - intros a b Hab Hb. unfold dot. destruct (Nat.eq_dec b i) as [->|N].
      + rewrite (sumq_ext n _ (fun c => g a c * g (S i) c + mu (S i) i * (g a c * g i c))%Q) by (intros c _; rewrite E1, E2 by auto; ring). rewrite sumq_add, sumq_scal. fold (dot n g a (S i)) (dot n g a i). rewrite !OR by lia. ring.
      + rewrite (sumq_ext n _ (fun c => g a c * g b c)%Q) by (intros c _; rewrite !E1 by lia; reflexivity). apply OR; lia. }
  rewrite Zlt_Qlt, (gram_det (S i) _ g' mu' GE), (gram_det (S i) B g mu G1). cbn [qprod]. rewrite (qprod_ext i (fun l => dot n g' l l) (fun l => dot n g l l)) by (intros l Hl; unfold dot; apply sumq_ext; intros c _; rewrite E1 by auto; reflexivity).
  assert (DD : (dot n g' i i == dot n g (S i) (S i) + mu (S i) i * mu (S i) i * dot n g i i)%Q).
  { unfold dot at 1. rewrite (sumq_ext n _ (fun c => g (S i) c * g (S i) c + (mu (S i) i * mu (S i) i * (g i c * g i c) + 2 * mu (S i) i * (g i c * g (S i) c)))%Q) by (intros c _; rewrite E2; ring). rewrite !sumq_add, !sumq_scal. fold (dot n g (S i) (S i)) (dot n g i i) (dot n g i (S i)). destruct G as [_ OR]. rewrite (OR i (S i)) by lia. ring. }
  rewrite DD. assert (P : (0 < qprod i (fun l => dot n g l l))%Q) by (apply qprod_pos; intros l Hl; apply PO; lia). apply Qmult_lt_l; auto.
Qed.
Definition potential (B : zmat) : Z := zprod n (fun k => det (S k) (gram B)).
Lemma gram_pos k B : (k <= n)%nat -> det n B <> 0 -> 0 < det k (gram B).
Proof.
  intros Hk D0. destruct (gs_exists B D0 k Hk) as [[g mu] G]. cbn [fst snd] in G. apply inj_pos. rewrite (gram_det k B g mu G). apply qprod_pos. now apply (gs_pos k B g mu).
Qed.
Lemma zprod_pos k f : (forall i, (i < k)%nat -> 0 < f i) -> 0 < zprod k f.
Proof. induction k as [|k IH]; intros H; cbn [zprod]; [lia|]. assert (0 < zprod k f) by (apply IH; intros; apply H; lia). assert (0 < f k) by (apply H; lia). nia. Qed.
Lemma zprod_lt k f h p : (p < k)%nat -> (forall i, (i < k)%nat -> 0 < f i) -> (forall i, (i < k)%nat -> i <> p -> f i = h i) -> f p < h p -> zprod k f < zprod k h.
Proof.
  induction k as [|k IH]; intros Hp P E LT; [lia|]. cbn [zprod]. destruct (Nat.eq_dec p k) as [->|N].
  - rewrite (zprod_ext k f h) by (intros i Hi; apply E; lia). assert (0 < zprod k h) by (rewrite <- (zprod_ext k f h) by (intros i Hi; apply E; lia); apply zprod_pos; intros; apply P; lia). nia.
  - rewrite (E k) by lia. assert (0 < h k) by (rewrite <- (E k) by lia; apply P; lia). specialize (IH ltac:(lia) ltac:(intros; apply P; lia) ltac:(intros; apply E; lia) LT). nia.
Qed.
Definition reduced (B : zmat) : Prop := exists g mu, gs n B g mu /\ size_reduced mu /\ forall i, (S i < n)%nat -> (dot n g i i <= dot n g (S i) (S i) + mu (S i) i * mu (S i) i * dot n g i i)%Q.
Lemma lovasz_dec (g mu : nat -> nat -> Q) : forall m, {i | (i < m)%nat /\ (dot n g (S i) (S i) + mu (S i) i * mu (S i) i * dot n g i i < dot n g i i)%Q} + {forall i, (i < m)%nat -> (dot n g i i <= dot n g (S i) (S i) + mu (S i) i * mu (S i) i * dot n g i i)%Q}.
Proof.
  induction m as [|m IH]; [right; intros; lia|]. destruct IH as [(i & Hi & H)|H]; [left; exists i; split; [lia|exact H]|].
  destruct (Qlt_le_dec (dot n g (S m) (S m) + mu (S m) m * mu (S m) m * dot n g m m) (dot n g m m)) as [X|X]; [left; exists m; split; [lia|exact X]|]. right. intros i Hi. destruct (Nat.eq_dec i m) as [->|N]; [exact X|apply H; lia].
Qed.
Lemma reduced_exists : forall m B, det n B <> 0 -> potential B < Z.of_nat m -> {U : zmat | unimodular U /\ reduced (mmul n U B)}.
Proof.
  induction m as [|m IH]; intros B D0 PB; [exfalso; assert (0 < potential B) by (apply zprod_pos; intros k Hk; apply gram_pos; auto); lia|].
  destruct (gs_exists B D0 n (Nat.le_refl n)) as [[g mu0] G0]. cbn [fst snd] in G0. destruct (size_reduce B g mu0 G0) as (U1 & UM & EX). set (B1 := mmul n U1 B) in *.
  assert (D1 : det n B1 <> 0) by (unfold B1; rewrite det_mul; unfold unimodular in UM; nia).
  assert (P1 : potential B1 = potential B). { apply zprod_ext. intros k Hk. apply inj_eq. rewrite (gram_det (S k) B g mu0 (gs_le (S k) n B g mu0 ltac:(lia) G0)). destruct EX as (mu' & G' & _). rewrite (gram_det (S k) B1 g mu' (gs_le (S k) n B1 g mu' ltac:(lia) G')). reflexivity. }
  set (mu := fun i j => (sumq n (fun c => inject_Z (B1 i c) * g j c) / dot n g j j)%Q).
  assert (GM : gs n B1 g mu /\ size_reduced mu).
  { destruct EX as (mu' & G' & SR). assert (EM : forall i j, (j < i)%nat -> (i < n)%nat -> (mu i j == mu' i j)%Q).
    { intros i j Hj Hi. pose proof (gs_pos n B1 g mu' (Nat.le_refl n) D1 G' j ltac:(lia)) as PO. unfold mu. rewrite (sumq_ext n _ (fun c => sumq n (fun l => M mu' i l * (g l c * g j c)))%Q) by (intros c Hc; rewrite (gs_row n B1 g mu' i c G' Hi Hc), Qmult_comm, <- sumq_scal; apply sumq_ext; intros; ring).
      rewrite sumq_swap. rewrite (sumq_single n _ j (Nat.lt_trans _ _ _ Hj Hi)); [|intros l Hl N; rewrite sumq_scal; fold (dot n g l j); destruct G' as [_ OR]; destruct (Nat.lt_ge_cases l j) as [Y|Y]; [rewrite OR by lia|rewrite dot_sym, OR by lia]; ring]. rewrite sumq_scal. fold (dot n g j j). rewrite M_low by auto. field. intros Z0. rewrite Z0 in PO. discriminate. }
    split; [|intros i j Hj Hi; rewrite EM by auto; now apply SR]. split; [|exact (proj2 G')]. intros i c Hi Hc. rewrite (proj1 G' i c Hi Hc). apply Qplus_comp; [reflexivity|]. apply sumq_ext. intros j Hj. rewrite (EM i j Hj Hi). reflexivity. }
  destruct (lovasz_dec g mu (n - 1)) as [(i & Hi & FA)|OK].
  - set (B2 := exch i B1). assert (E2 : meq n n B2 (mmul n (fun a b => delta (tr i a) b) B1)). { intros a c Ha Hc. unfold B2, exch, mmul. rewrite zsum_delta; [reflexivity|]. unfold tr. destruct (Nat.eqb_spec a i), (Nat.eqb_spec a (S i)); lia. }
    assert (DS : det n (fun a b => delta (tr i a) b) = -1). { transitivity (- det n delta); [|now rewrite det_id]. rewrite <- (det_swap n delta i (S i)) by lia. apply det_ext. intros a b _ _. unfold tr. destruct (Nat.eqb_spec a i) as [->|N1]; [reflexivity|]. destruct (Nat.eqb_spec a (S i)); reflexivity. }
    assert (D2 : det n B2 <> 0) by (rewrite (det_ext n _ _ E2), det_mul, DS; lia).
    assert (P2 : potential B2 < Z.of_nat m).
    { assert (X : potential B2 < potential B1); [|lia]. apply (zprod_lt n _ _ i); [lia|intros k Hk; apply gram_pos; auto| |].
      - intros k Hk N. apply exch_gram_det; lia.
      - apply (exch_lower i B1 g mu); [lia|exact D1|exact (proj1 GM)|exact FA]. }
    destruct (IH B2 D2 P2) as (U2 & UM2 & R2). exists (mmul n U2 (mmul n (fun a b => delta (tr i a) b) U1)). split.
    + unfold unimodular in *. rewrite !det_mul, DS. nia.
    + destruct R2 as (g2 & mu2 & G2 & S2 & L2). exists g2, mu2. split; [|auto]. split; [|exact (proj2 G2)]. intros a c Ha Hc. rewrite <- (proj1 G2 a c Ha Hc). assert (X : mmul n (mmul n U2 (mmul n (fun a b => delta (tr i a) b) U1)) B a c = mmul n U2 B2 a c); [|rewrite X; reflexivity].
      rewrite mmul_assoc. unfold mmul at 1. symmetry. unfold mmul at 1. apply zsum_ext. intros k Hk. f_equal. rewrite (E2 k c Hk Hc). symmetry. apply mmul_assoc.
  - exists U1. split; [exact UM|]. exists g, mu. split; [exact (proj1 GM)|]. split; [exact (proj2 GM)|]. intros i Hi. apply OK. lia.
Qed.
End Gram.
