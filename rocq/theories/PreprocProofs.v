From Coq Require Import Permutation.
From Verif Require Import Common ZMat Det DetProofs Hermite HermiteSpec HermiteProofs HermiteProofs2 HermiteProofs3 Preproc PreprocSpec.
Open Scope Z_scope.

(** ** Sums *)
Lemma zsum_split r q f : zsum (r + q) f = zsum r f + zsum q (fun a => f (r + a)%nat).
Proof. induction q as [|q IH]; [rewrite Nat.add_0_r; cbn; ring|]. rewrite Nat.add_succ_r. cbn [zsum]. rewrite IH. ring. Qed.
Definition lsum (l : list Z) : Z := fold_right Z.add 0 l.
Lemma lsum_app a b : lsum (a ++ b) = lsum a + lsum b.
Proof. unfold lsum. induction a as [|x a IH]; cbn [app fold_right]; lia. Qed.
Lemma lsum_perm a b : Permutation a b -> lsum a = lsum b.
Proof. induction 1; cbn in *; unfold lsum in *; lia. Qed.
Lemma zsum_lsum n f : zsum n f = lsum (map f (seq 0 n)).
Proof. induction n as [|n IH]; auto. cbn [zsum]. rewrite seq_S, map_app, lsum_app, IH. cbn. ring. Qed.
Lemma zsum_perm p r f : Permutation p (seq 0 r) -> zsum r (fun j => f (nth j p 0%nat)) = zsum r f.
Proof.
  intros H. assert (L : length p = r) by (rewrite (Permutation_length H), seq_length; auto).
  rewrite !zsum_lsum. apply lsum_perm. rewrite <- (map_map (fun j => nth j p 0%nat) f). apply Permutation_map.
  assert (E : map (fun j => nth j p 0%nat) (seq 0 r) = p); [|now rewrite E].
  apply (nth_ext _ _ 0%nat 0%nat); [now rewrite map_length, seq_length|]. intros k Hk. rewrite map_length, seq_length in Hk. now rewrite nth_map_seq.
Qed.
Fixpoint index (i : nat) (l : list nat) : nat := match l with [] => 0 | a :: l' => if (a =? i)%nat then 0 else S (index i l') end.
Lemma index_nth p : NoDup p -> forall j, (j < length p)%nat -> index (nth j p 0%nat) p = j.
Proof.
  induction 1 as [|a p N D IH]; intros [|j] H; cbn [length nth index] in *; try lia; [now rewrite Nat.eqb_refl|].
  rewrite (proj2 (Nat.eqb_neq _ _)), IH by (try lia; intros ->; apply N, nth_In; lia). reflexivity.
Qed.
Lemma perm_index p r i : Permutation p (seq 0 r) -> (i < r)%nat -> exists j, (j < r)%nat /\ nth j p 0%nat = i.
Proof.
  intros H Hi. assert (In i p) as X by (apply (Permutation_in i (Permutation_sym H)), in_seq; lia). apply (In_nth _ _ 0%nat) in X as (j & Hj & E).
  exists j. rewrite (Permutation_length H), seq_length in Hj. auto.
Qed.
Lemma perm_lt p r j : Permutation p (seq 0 r) -> (j < r)%nat -> (nth j p 0 < r)%nat.
Proof. intros H Hj. assert (X : In (nth j p 0%nat) (seq 0 r)) by (apply (Permutation_in _ H), nth_In; rewrite (Permutation_length H), seq_length; auto). apply in_seq in X. lia. Qed.
Lemma kernel_adj n A (u v : nat -> Z) : det n A <> 0 -> (forall i, (i < n)%nat -> zsum n (fun k => A i k * u k) = zsum n (fun k => A i k * v k)) -> forall i, (i < n)%nat -> u i = v i.
Proof.
  intros D H i Hi.
  assert (X : forall w, zsum n (fun k => adj n A i k * zsum n (fun l => A k l * w l)) = det n A * w i).
  { intros w. pose proof (mmul_assoc n n (adj n A) A (fun l _ => w l) i 0%nat) as E. unfold mmul at 3 4 in E. rewrite <- E. unfold mmul at 1.
    rewrite (zsum_ext n _ (fun k => (det n A * delta i k) * w k)) by (intros k Hk; f_equal; now apply adj_l).
    rewrite (zsum_single n _ i); auto; [rewrite delta_eq; ring|]. intros k _ N. rewrite delta_neq by auto. ring. }
  pose proof (X u) as U. pose proof (X v) as V. rewrite (zsum_ext n _ (fun k => adj n A i k * zsum n (fun l => A k l * v l))) in U by (intros k Hk; now rewrite H). nia.
Qed.
(** ** Forward substitution *)
Lemma forward_len k : forall i r H rhs, length (forward k i r H rhs) = k.
Proof. induction k as [|k IH]; intros; cbn [forward]; auto. destruct (_ =? 0); cbn [length]; now rewrite IH. Qed.
Lemma forward_exact z r (H : zmat) : (forall i, (i < r)%nat -> H i i <> 0) -> (forall i j, (i < j)%nat -> (j < r)%nat -> H i j = 0) ->
  forall k i rhs, (i + k = r)%nat -> (forall j, (i <= j < r)%nat -> nth j rhs 0 = zsum k (fun a => H j (i + a)%nat * z (i + a)%nat)) ->
  forall a, (a < k)%nat -> nth a (forward k i r H rhs) 0 = z (i + a)%nat.
Proof.
  intros D T. induction k as [|k IH]; intros i rhs E R a Ha; [lia|]. cbn [forward]. rewrite (proj2 (Z.eqb_neq _ _)) by (apply D; lia).
  assert (HD : forall j, zsum (S k) (fun a => H j (i + a)%nat * z (i + a)%nat) = H j i * z i + zsum k (fun a => H j (S i + a)%nat * z (S i + a)%nat)).
  { intros j. change (S k) with (1 + k)%nat. rewrite zsum_split. cbn [zsum]. rewrite Nat.add_0_r. rewrite (zsum_ext k _ (fun a => H j (S i + a)%nat * z (S i + a)%nat)) by (intros b _; now rewrite Nat.add_assoc, (Nat.add_comm i 1)). ring. }
  assert (Q : nth i rhs 0 / H i i = z i).
  { rewrite R by lia. rewrite HD. rewrite (zsum_zero k) by (intros b Hb; rewrite (T i (S i + b)%nat) by lia; ring). rewrite Z.add_0_r, Z.mul_comm. apply Z.div_mul. apply D. lia. }
  rewrite Q. destruct a as [|a]; cbn [nth]; [now rewrite Nat.add_0_r|]. replace (i + S a)%nat with (S i + a)%nat by lia. apply IH; try lia.
  intros j Hj. rewrite nth_map_seq by lia. rewrite (proj2 (Nat.ltb_lt i j)) by lia. rewrite R, HD by lia. ring.
Qed.
(** ** The reduced system *)
Lemma zsum_abs_zero m f : zsum m (fun k => Z.abs (f k)) = 0 <-> forall k, (k < m)%nat -> f k = 0.
Proof.
  split.
  - induction m as [|m IH]; intros E k Hk; [lia|]. cbn [zsum] in E. assert (P : 0 <= zsum m (fun k => Z.abs (f k))) by (clear; induction m as [|m IH]; cbn [zsum]; lia).
    destruct (Nat.eq_dec k m) as [->|N]; [lia|]. apply IH; lia.
  - intros E. apply zsum_zero. intros k Hk. rewrite E by auto. reflexivity.
Qed.
Section Reduced.
Variables (eqs ineqs : list (list Z)) (n : nat).
Notation r := (length eqs).
Definition Smat : list (list Z) := map (fun k => map (fun e => - nth (k + 1) e 0) eqs) (seq 0 n).
Definition rhsv : list Z := map (fun e => nth 0 e 0) eqs.
Lemma Smat_mat : is_mat Smat n r.
Proof. unfold Smat. split; [now rewrite map_length, seq_length|]. apply Forall_map, Forall_forall. intros k _. now rewrite map_length. Qed.
Lemma ent_Smat k i : (k < n)%nat -> (i < r)%nat -> ent Smat k i = - ent eqs i (k + 1).
Proof. intros Hk Hi. unfold ent, Smat. rewrite nth_map_seq by auto. rewrite (nth_indep _ 0 (- nth (k + 1) [] 0)) by (rewrite map_length; lia). now rewrite (map_nth (fun e => - nth (k + 1) e 0)). Qed.
Lemma nth_rhsv i : (i < r)%nat -> nth i rhsv 0 = ent eqs i 0.
Proof. intros Hi. unfold rhsv, ent. rewrite (nth_indep _ 0 (nth 0 (@nil Z) 0)) by (rewrite map_length; lia). now rewrite (map_nth (fun e => nth 0 e 0)). Qed.
Lemma sat_nth t x : sat_eqs n t eqs x <-> forall i, (i < r)%nat -> zsum n (fun k => ent Smat k i * x k) = t * nth i rhsv 0.
Proof.
  assert (E : forall i, (i < r)%nat -> row_value n t (nth i eqs []) x = t * nth i rhsv 0 - zsum n (fun k => ent Smat k i * x k)).
  { intros i Hi. unfold row_value. rewrite nth_rhsv by auto. unfold ent at 1. replace (zsum n (fun k => ent Smat k i * x k)) with ((-1) * zsum n (fun k => nth (k + 1) (nth i eqs []) 0 * x k)); [ring|].
    rewrite <- zsum_scal. apply zsum_ext. intros k Hk. rewrite ent_Smat by auto. unfold ent. ring. }
  split.
  - intros H i Hi. specialize (H (nth i eqs []) (nth_In _ _ Hi)). rewrite E in H by auto. lia.
  - intros H e He. apply (In_nth _ _ []) in He as (i & Hi & <-). rewrite E by auto. rewrite H by auto. ring.
Qed.
Variables (rank : nat) (S' U : list (list Z)) (rhs' : list Z).
Hypothesis HR : hermite_result n r Smat rhsv rank S' U rhs'.
Lemma independent_rank : independent n eqs -> rank = r.
Proof.
  intros I. destruct HR as (MS & MU & _ & LR & (V & I1 & I2) & (p & P & _ & _ & E) & D & T & Z0).
  destruct (Nat.eq_dec rank r) as [|NE]; auto. exfalso. assert (HL : (rank < r)%nat) by lia.
  assert (LP : length p = r) by (rewrite (Permutation_length P), seq_length; auto). assert (ND : NoDup p) by (apply (Permutation_NoDup (Permutation_sym P)), seq_NoDup).
  assert (DT : det rank (ent S') <> 0).
  { rewrite <- det_tr. apply det_lower_nz; [intros i Hi; specialize (D i Hi); lia|]. intros i j Hij Hj. apply T; lia. }
  set (c' := fun j => if (j <? rank)%nat then - zsum rank (fun k => adj rank (ent S') j k * ent S' k rank) else if (j =? rank)%nat then det rank (ent S') else 0).
  assert (K : forall a, (a < n)%nat -> zsum r (fun j => ent S' a j * c' j) = 0).
  { intros a Ha. destruct (Nat.lt_ge_cases a rank) as [A|A]; [|apply zsum_zero; intros j Hj; rewrite Z0 by lia; ring].
    replace r with (rank + (1 + (r - rank - 1)))%nat by lia. rewrite zsum_split, zsum_split. cbn [zsum].
    rewrite (zsum_ext rank _ (fun j => (-1) * (ent S' a j * zsum rank (fun k => adj rank (ent S') j k * ent S' k rank)))) by (intros j Hj; unfold c'; rewrite (proj2 (Nat.ltb_lt _ _)) by lia; ring).
    rewrite zsum_scal.
    pose proof (mmul_assoc rank rank (ent S') (adj rank (ent S')) (fun k _ => ent S' k rank) a 0%nat) as AS. unfold mmul at 3 4 in AS. rewrite <- AS. unfold mmul at 1.
    rewrite (zsum_ext rank (fun k => _) (fun k => (det rank (ent S') * delta a k) * ent S' k rank)) by (intros k Hk; f_equal; now apply adj_r).
    rewrite (zsum_single rank (fun k => _) a); auto; [|intros k _ N; rewrite delta_neq by auto; ring]. rewrite delta_eq, Nat.add_0_r.
    rewrite (zsum_zero (r - rank - 1)) by (intros j Hj; unfold c'; rewrite (proj2 (Nat.ltb_ge _ _)), (proj2 (Nat.eqb_neq _ _)) by lia; ring).
    unfold c'. rewrite Nat.ltb_irrefl, Nat.eqb_refl. ring. }
  assert (KS : forall k, (k < n)%nat -> zsum r (fun j => ent Smat k (nth j p 0%nat) * c' j) = 0).
  { intros k Hk. pose proof (mmul_id_l n (fun k _ => zsum r (fun j => ent Smat k (nth j p 0%nat) * c' j)) k 0%nat Hk) as X. rewrite <- X.
    rewrite <- (mmul_ext n n 1 _ _ _ _ I2 (fun _ _ _ _ => eq_refl) k 0%nat Hk ltac:(lia)). rewrite mmul_assoc. unfold mmul at 1. apply zsum_zero. intros a Ha.
    assert (Y : mmul n (ent U) (fun k _ => zsum r (fun j => ent Smat k (nth j p 0%nat) * c' j)) a 0%nat = 0); [|rewrite Y; ring].
    change (mmul n (ent U) (mmul r (fun k j => ent Smat k (nth j p 0%nat)) (fun j _ => c' j)) a 0%nat = 0). rewrite <- mmul_assoc. rewrite <- (K a Ha). unfold mmul at 1. apply zsum_ext. intros j Hj. f_equal. now apply E. }
  specialize (I (fun i => c' (index i p))). assert (c' (index (nth rank p 0%nat) p) = 0).
  { apply I; [|now apply perm_lt]. intros k Hk. rewrite <- (zsum_perm p r) by auto.
    rewrite (zsum_ext r _ (fun j => (-1) * (ent Smat k (nth j p 0%nat) * c' j))).
    - rewrite zsum_scal, KS by auto. ring.
    - intros j Hj. rewrite ent_Smat by (auto; now apply perm_lt). rewrite index_nth by (auto; lia). ring. }
  rewrite index_nth in H by (auto; lia). unfold c' in H. rewrite Nat.ltb_irrefl, Nat.eqb_refl in H. auto.
Qed.
Hypothesis FR : rank = r.
Hypothesis RN : (r <= n)%nat.
Notation H := (fun i j => ent S' j i).
Lemma H_diag i : (i < r)%nat -> ent S' i i <> 0.
Proof. intros Hi. destruct HR as (_ & _ & _ & _ & _ & _ & D & _). rewrite FR in D. specialize (D i Hi). lia. Qed.
Lemma H_low i j : (i < j)%nat -> (j < r)%nat -> ent S' j i = 0.
Proof. intros Hij Hj. destruct HR as (_ & _ & _ & _ & _ & _ & _ & T & _). apply T; lia. Qed.
Lemma DD_nz : det r H <> 0.
Proof. apply det_lower_nz; [apply H_diag|intros; now apply H_low]. Qed.
(** A point x = U^T z solves the equations iff H z = t rhs'. *)
Lemma sat_z t z : sat_eqs n t eqs (fun k => zsum n (fun a => z a * ent U a k)) <-> forall j, (j < r)%nat -> zsum r (fun a => H j a * z a) = t * nth j rhs' 0.
Proof.
  rewrite sat_nth. destruct HR as (MS & MU & _ & _ & _ & (p & P & R1 & _ & E) & D & T & Z0).
  assert (X : forall j, (j < r)%nat -> zsum n (fun k => ent Smat k (nth j p 0%nat) * zsum n (fun a => z a * ent U a k)) = zsum r (fun a => H j a * z a)).
  { intros j Hj. rewrite dot_through. rewrite (zsum_ext n _ (fun a => ent S' a j * z a)).
    - replace n with (r + (n - r))%nat by lia. rewrite zsum_split. rewrite (zsum_zero (n - r)) by (intros a Ha; rewrite Z0 by lia; ring). ring.
    - intros a Ha. rewrite <- E by auto. ring. }
  split.
  - intros G j Hj. rewrite <- X, R1 by auto. apply G. now apply perm_lt.
  - intros G i Hi. destruct (perm_index p r i P Hi) as (j & Hj & <-). rewrite X, G, R1 by auto. reflexivity.
Qed.
Definition solv : list Z := forward r 0 r H rhs' ++ repeat 0 (n - r).
Lemma nth_solv_hi a : (r <= a)%nat -> nth a solv 0 = 0.
Proof. intros Ha. unfold solv. rewrite app_nth2; rewrite forward_len; [|lia]. destruct (Nat.lt_ge_cases (a - r) (n - r)) as [L|L]; [now apply nth_repeat|rewrite nth_overflow by (rewrite repeat_length; lia); auto]. Qed.
Definition check : bool := forallb (fun i => nth i (map (fun i => if (i <? r)%nat then zsum r (fun k => adj r H i k * nth k rhs' 0) else 0) (seq 0 n)) 0 - nth i solv 0 * det r H =? 0) (seq 0 n).
Lemma check_ok : check = true <-> forall j, (j < r)%nat -> zsum r (fun a => H j a * nth a solv 0) = nth j rhs' 0.
Proof.
  unfold check. rewrite forallb_forall. split.
  - intros C j Hj. assert (E : forall a, (a < r)%nat -> zsum r (fun k => adj r H a k * nth k rhs' 0) = nth a solv 0 * det r H).
    { intros a Ha. specialize (C a ltac:(apply in_seq; lia)). rewrite nth_map_seq in C by lia. rewrite (proj2 (Nat.ltb_lt a r)) in C by lia. apply Z.eqb_eq in C. lia. }
    apply (Z.mul_reg_l _ _ _ DD_nz). rewrite <- zsum_scal. rewrite (zsum_ext r _ (fun a => H j a * zsum r (fun k => adj r H a k * nth k rhs' 0))) by (intros a Ha; rewrite E by auto; ring).
    pose proof (mmul_assoc r r H (adj r H) (fun k _ => nth k rhs' 0) j 0%nat) as AS. unfold mmul at 3 4 in AS. rewrite <- AS. unfold mmul at 1.
    rewrite (zsum_ext r _ (fun k => (det r H * delta j k) * nth k rhs' 0)) by (intros k Hk; f_equal; now apply adj_r).
    rewrite (zsum_single r _ j); auto; [rewrite delta_eq; ring|]. intros k _ N. rewrite delta_neq by auto. ring.
  - intros C i Hi. apply in_seq in Hi. apply Z.eqb_eq. rewrite nth_map_seq by lia. destruct (Nat.ltb_spec i r) as [A|A]; [|rewrite nth_solv_hi by lia; ring].
    rewrite (zsum_ext r _ (fun k => adj r H i k * zsum r (fun a => H k a * nth a solv 0))) by (intros k Hk; now rewrite C).
    pose proof (mmul_assoc r r (adj r H) H (fun k _ => nth k solv 0) i 0%nat) as AS. unfold mmul at 3 4 in AS. rewrite <- AS. unfold mmul at 1.
    rewrite (zsum_ext r _ (fun k => (det r H * delta i k) * nth k solv 0)) by (intros k Hk; f_equal; now apply adj_l).
    rewrite (zsum_single r _ i); auto; [rewrite delta_eq; ring|]. intros k _ N. rewrite delta_neq by auto. ring.
Qed.
Lemma as_z x : exists z, forall k, (k < n)%nat -> x k = zsum n (fun a => z a * ent U a k).
Proof. destruct HR as (_ & _ & _ & _ & (V & _ & I2) & _). exists (fun k => zsum n (fun l => x l * V l k)). intros k Hk. symmetry. now apply row_back. Qed.
Lemma sat_ext t x x' : (forall k, (k < n)%nat -> x k = x' k) -> sat_eqs n t eqs x -> sat_eqs n t eqs x'.
Proof. intros E Hs e He. rewrite <- (Hs e He). unfold row_value. f_equal. apply zsum_ext. intros k Hk. now rewrite E. Qed.
Lemma check_complete x : sat_eqs n 1 eqs x -> check = true.
Proof.
  intros Hs. destruct (as_z x) as [z Hz]. apply (sat_ext 1 _ _ Hz) in Hs. pose proof (proj1 (sat_z 1 z) Hs) as Hs'. clear Hs. rename Hs' into Hs.
  assert (E : forall a, (a < r)%nat -> nth a solv 0 = z a).
  { intros a Ha. unfold solv. rewrite app_nth1 by (rewrite forward_len; lia). rewrite (forward_exact z r H H_diag H_low r 0 rhs'); auto.
    intros j Hj. specialize (Hs j ltac:(lia)). rewrite Z.mul_1_l in Hs. rewrite <- Hs. reflexivity. }
  apply check_ok. intros j Hj. rewrite (zsum_ext r _ (fun a => H j a * z a)) by (intros a Ha; now rewrite E). rewrite Hs by auto. ring.
Qed.
Definition partv : list Z := map (fun i => zsum n (fun j => ent U j i * nth j solv 0)) (seq 0 n).
Definition basisv : list (list Z) := skipn rank U.
Lemma basis_len : length basisv = (n - r)%nat.
Proof. unfold basisv. rewrite skipn_length. destruct HR as (_ & [L _] & _). lia. Qed.
Definition zof (t : Z) (y : nat -> Z) (a : nat) : Z := if (a <? r)%nat then t * nth a solv 0 else y (a - r)%nat.
Lemma affine_z t y i : (i < n)%nat -> affine_point t partv basisv y i = zsum n (fun a => zof t y a * ent U a i).
Proof.
  intros Hi. unfold affine_point, combination. rewrite basis_len. unfold partv. rewrite nth_map_seq by auto.
  replace n with (r + (n - r))%nat at 1 3 by lia. rewrite !zsum_split. rewrite (zsum_zero (n - r) (fun a => ent U (r + a)%nat i * nth (r + a) solv 0)) by (intros a Ha; rewrite nth_solv_hi by lia; ring).
  rewrite Z.add_0_r, <- zsum_scal. f_equal; apply zsum_ext; intros a Ha; unfold zof.
  - rewrite (proj2 (Nat.ltb_lt a r)) by lia. ring.
  - rewrite (proj2 (Nat.ltb_ge _ _)) by lia. replace (r + a - r)%nat with a by lia. unfold ent, basisv. rewrite nth_skip, FR. reflexivity.
Qed.
Lemma affine_sat t y : check = true -> sat_eqs n t eqs (affine_point t partv basisv y).
Proof.
  intros C. apply (sat_ext t (fun k => zsum n (fun a => zof t y a * ent U a k))); [intros k Hk; symmetry; now apply affine_z|]. apply (proj2 (sat_z t (zof t y))). intros j Hj.
  rewrite (zsum_ext r _ (fun a => t * (H j a * nth a solv 0))) by (intros a Ha; unfold zof; rewrite (proj2 (Nat.ltb_lt a r)) by lia; ring). rewrite zsum_scal. now rewrite (proj1 check_ok C).
Qed.
Lemma affine_all t x : check = true -> sat_eqs n t eqs x -> exists y, forall i, (i < n)%nat -> x i = affine_point t partv basisv y i.
Proof.
  intros C Hs. destruct (as_z x) as [z Hz]. apply (sat_ext t _ _ Hz) in Hs. pose proof (proj1 (sat_z t z) Hs) as Hs'. exists (fun k => z (r + k)%nat). intros i Hi. rewrite affine_z, Hz by auto. apply zsum_ext. intros a Ha. f_equal.
  unfold zof. destruct (Nat.ltb_spec a r) as [A|A]; [|f_equal; lia].
  apply (kernel_adj r H z (fun a => t * nth a solv 0) DD_nz); auto. intros j Hj. rewrite Hs' by auto.
  rewrite (zsum_ext r _ (fun a => t * (H j a * nth a solv 0))) by (intros; ring). rewrite zsum_scal. now rewrite (proj1 check_ok C).
Qed.
Lemma affine_inj t y y' : (forall i, (i < n)%nat -> affine_point t partv basisv y i = affine_point t partv basisv y' i) -> forall k, (k < length basisv)%nat -> y k = y' k.
Proof.
  intros E k Hk. rewrite basis_len in Hk. destruct HR as (_ & _ & _ & _ & (V & I1 & _) & _).
  assert (X : forall y, zsum n (fun l => affine_point t partv basisv y l * V l (r + k)%nat) = y k).
  { intros w. rewrite (zsum_ext n _ (fun l => zsum n (fun a => zof t w a * ent U a l) * V l (r + k)%nat)) by (intros l Hl; now rewrite affine_z).
    pose proof (row_back n V (ent U) (zof t w) (r + k)%nat I1 ltac:(lia)) as RB. cbn beta in RB. rewrite RB. unfold zof. rewrite (proj2 (Nat.ltb_ge _ _)) by lia. f_equal. lia. }
  rewrite <- (X y), <- (X y'). apply zsum_ext. intros l Hl. now rewrite E.
Qed.
(** ** Inequalities *)
Lemma new_row_value t a y : row_value (length basisv) 1 (new_row n partv basisv t a) y = row_value n t a (affine_point t partv basisv y).
Proof.
  unfold row_value, new_row. cbn [nth]. rewrite (zsum_ext (length basisv) _ (fun k => zsum n (fun i => nth (i + 1) a 0 * (y k * ent basisv k i)))).
  - rewrite zsum_swap. rewrite (zsum_ext n (fun k => nth (k + 1) a 0 * affine_point t partv basisv y k) (fun k => t * (nth (k + 1) a 0 * nth k partv 0) + zsum (length basisv) (fun j => nth (k + 1) a 0 * (y j * ent basisv j k)))).
    + rewrite zsum_add, zsum_scal. ring.
    + intros k Hk. unfold affine_point, combination. rewrite zsum_scal. ring.
  - intros k Hk. replace (k + 1)%nat with (S k) by lia. cbn [nth]. rewrite app_nth1 by (rewrite map_length; lia).
    rewrite (nth_indep _ 0 (zsum n (fun k => nth (k + 1) a 0 * nth k (@nil Z) 0))) by (rewrite map_length; lia). rewrite (map_nth (fun g => zsum n (fun k => nth (k + 1) a 0 * nth k g 0))).
    rewrite Z.mul_comm, <- zsum_scal. apply zsum_ext. intros i Hi. unfold ent. ring.
Qed.
Lemma trivial_value t a y : trivial_row (new_row n partv basisv t a) = true -> row_value (length basisv) 1 (new_row n partv basisv t a) y = nth 0 (new_row n partv basisv t a) 0.
Proof.
  intros E. apply Z.eqb_eq in E. assert (L : (length (new_row n partv basisv t a) - 2 = length basisv)%nat) by (unfold new_row; cbn [length]; rewrite app_length, map_length; cbn [length]; lia). rewrite L in E.
  rewrite (zsum_abs_zero (length basisv) (fun k => nth (k + 1) (new_row n partv basisv t a) 0)) in E.
  unfold row_value. rewrite zsum_zero by (intros k Hk; rewrite E by auto; ring). ring.
Qed.
Lemma reduce_ineqs_ok t : check = true ->
  match reduce_ineqs n partv basisv t ineqs with
  | Reduced p b rows => corresponds n t eqs ineqs p b rows
  | Count0 => (forall x, sat_eqs n t eqs x -> ~ sat_ineqs n t ineqs x) \/ (forall x, sat_eqs n t eqs x -> sat_ineqs n t ineqs x)
  | _ => False
  end.
Proof.
  intros C. unfold reduce_ineqs.
  assert (VX : forall x a y, (forall i, (i < n)%nat -> x i = affine_point t partv basisv y i) -> row_value n t a x = row_value (length basisv) 1 (new_row n partv basisv t a) y).
  { intros x a y E. rewrite new_row_value. unfold row_value. f_equal. apply zsum_ext. intros k Hk. now rewrite E. }
  destruct (existsb (fun b => trivial_row b && (nth 0 b 0 <? 0)) (map (new_row n partv basisv t) ineqs)) eqn:EX.
  - left. intros x Hs Hi. apply existsb_exists in EX as (b & Hb & B). apply in_map_iff in Hb as (a & <- & Ha). apply andb_prop in B as [B1 B2]. apply Z.ltb_lt in B2.
    destruct (affine_all t x C Hs) as [y Hy]. specialize (Hi a Ha). rewrite (VX x a y Hy), trivial_value in Hi by auto. lia.
  - assert (NT : forall a y, In a ineqs -> trivial_row (new_row n partv basisv t a) = true -> 0 <= row_value (length basisv) 1 (new_row n partv basisv t a) y).
    { intros a y Ha Tr. rewrite trivial_value by auto. destruct (Z.ltb_spec (nth 0 (new_row n partv basisv t a) 0) 0) as [B|B]; [|lia]. exfalso.
      assert (X : existsb (fun b => trivial_row b && (nth 0 b 0 <? 0)) (map (new_row n partv basisv t) ineqs) = true); [|congruence].
      apply existsb_exists. exists (new_row n partv basisv t a). split; [now apply in_map|]. rewrite Tr. cbn [andb]. now apply Z.ltb_lt. }
    destruct (filter (fun b => negb (trivial_row b)) (map (new_row n partv basisv t) ineqs)) as [|b0 bs] eqn:FL.
    + right. intros x Hs a Ha. destruct (affine_all t x C Hs) as [y Hy]. rewrite (VX x a y Hy). apply NT; auto.
      destruct (trivial_row (new_row n partv basisv t a)) eqn:Tr; auto. assert (X : In (new_row n partv basisv t a) []); [|destruct X]. rewrite <- FL. apply filter_In. split; [now apply in_map|now rewrite Tr].
    + rewrite <- FL. refine (conj _ (conj _ (conj _ _))).
      * intros y. now apply affine_sat.
      * intros x. now apply affine_all.
      * intros y y'. apply affine_inj.
      * intros y. split.
        -- intros Hs a Ha. rewrite <- new_row_value. destruct (trivial_row (new_row n partv basisv t a)) eqn:Tr; [now apply NT|].
           apply Hs. apply filter_In. split; [now apply in_map|now rewrite Tr].
        -- intros Hs b Hb. apply filter_In in Hb as [Hb _]. apply in_map_iff in Hb as (a & <- & Ha). rewrite new_row_value. now apply Hs.
Qed.
End Reduced.
Theorem preprocess_ok eqs ineqs n t : ineqs <> [] -> independent n eqs ->
  exists fuel res, (forall f, (fuel <= f)%nat -> preprocess f eqs ineqs n t = Ok res) /\
  match res with
  | Reduced p b rows => corresponds n t eqs ineqs p b rows
  | Count0 => (forall x, ~ sat_eqs n 1 eqs x) \/ (forall x, sat_eqs n t eqs x -> ~ sat_ineqs n t ineqs x) \/ (forall x, sat_eqs n t eqs x -> sat_ineqs n t ineqs x)
  | _ => False
  end.
Proof.
  intros NE I. destruct (ihermite_ok n (length eqs) (Smat eqs n) (rhsv eqs) (Smat_mat eqs n)) as (fuel & rank & S' & U & rhs' & HR & G); [unfold rhsv; rewrite map_length; lia|].
  pose proof (independent_rank eqs n rank S' U rhs' HR I) as FR. assert (RN : (length eqs <= n)%nat) by (destruct HR as (_ & _ & _ & L & _); lia).
  assert (P : forall f, (fuel <= f)%nat -> preprocess f eqs ineqs n t = if negb (check eqs n S' rhs') then Ok Count0 else Ok (reduce_ineqs n (partv eqs n S' U rhs') (basisv rank U) t ineqs)).
  { intros f Hf. unfold preprocess. destruct ineqs as [|a l]; [congruence|]. fold (Smat eqs n). fold (rhsv eqs). rewrite G by auto. cbn [bind].
    rewrite (proj2 (Nat.ltb_ge n (length eqs))) by auto. pose proof (DD_nz eqs n rank S' U rhs' HR FR RN) as D. rewrite (proj2 (Z.eqb_neq (det _ _) 0)) by exact D. cbn [negb andb]. reflexivity. }
  destruct (check eqs n S' rhs') eqn:C; cbn [negb] in P; exists fuel; eexists; (split; [exact P|]); cbn beta iota.
  - pose proof (reduce_ineqs_ok eqs ineqs n rank S' U rhs' HR FR RN t C) as X. destruct (reduce_ineqs n (partv eqs n S' U rhs') (basisv rank U) t ineqs); auto.
  - left. intros x Hs. rewrite (check_complete eqs n rank S' U rhs' HR FR RN x Hs) in C. discriminate.
Qed.
(** ** No inequalities *)
Lemma sum_mod_zero n d x : d <> 0 -> (zsum n x = d * zsum n (fun i => x i / d) <-> forall i, (i < n)%nat -> (d | x i)).
Proof.
  intros D. assert (E : zsum n x = d * zsum n (fun i => x i / d) + zsum n (fun i => x i mod d)).
  { rewrite <- zsum_scal, <- zsum_add. apply zsum_ext. intros i _. now apply Z.div_mod. }
  rewrite E. split.
  - intros H i Hi. assert (Z0 : zsum n (fun i => x i mod d) = 0) by lia. apply Z.mod_divide; auto.
    destruct (Z.lt_ge_cases d 0) as [N|P].
    + apply (proj1 (zsum_abs_zero n (fun i => x i mod d))); auto. rewrite (zsum_ext n _ (fun i => (-1) * (x i mod d))) by (intros k _; pose proof (Z.mod_neg_bound (x k) d N); lia). rewrite zsum_scal, Z0. ring.
    + apply (proj1 (zsum_abs_zero n (fun i => x i mod d))); auto. rewrite (zsum_ext n _ (fun i => x i mod d)) by (intros k _; pose proof (Z.mod_pos_bound (x k) d); lia). auto.
  - intros H. rewrite (zsum_zero n (fun i => x i mod d)) by (intros i Hi; apply Z.mod_divide; auto). ring.
Qed.
Theorem solve_point_ok fuel eqs n t : length eqs = n -> independent n eqs ->
  (preprocess fuel eqs [] n t = Ok Count1 /\ exists x, sat_eqs n 1 eqs x /\ forall x', sat_eqs n 1 eqs x' -> forall i, (i < n)%nat -> x' i = x i) \/
  (preprocess fuel eqs [] n t = Ok Count0 /\ forall x, ~ sat_eqs n 1 eqs x).
Proof.
  intros L I. unfold preprocess. rewrite L, Nat.eqb_refl. unfold solve_point. set (A := fun i j => - ent eqs i (j + 1)).
  assert (D : det n A <> 0).
  { intros Z0. destruct (det_zero_kernel n A Z0) as (v & (i & Hi & Nv) & K). apply Nv. apply I; [|lia]. intros k Hk. specialize (K k Hk). rewrite L.
    rewrite (zsum_ext n _ (fun i => (-1) * (v i * A i k))) by (intros; unfold A; ring). rewrite zsum_scal, K. ring. }
  rewrite (proj2 (Z.eqb_neq _ _)) by auto. set (b := fun k => ent eqs k 0). set (x := fun i => zsum n (fun k => adj n A i k * ent eqs k 0)).
  assert (SAT : forall z, sat_eqs n 1 eqs z <-> forall i, (i < n)%nat -> zsum n (fun k => A i k * z k) = b i).
  { intros z. assert (E : forall i, row_value n 1 (nth i eqs []) z = b i - zsum n (fun k => A i k * z k)).
    { intros i. unfold row_value, b, ent at 1. rewrite (zsum_ext n (fun k => A i k * z k) (fun k => (-1) * (nth (k + 1) (nth i eqs []) 0 * z k))) by (intros; unfold A, ent; ring). rewrite zsum_scal. ring. }
    split; [intros H i Hi; assert (Hi' : (i < length eqs)%nat) by lia; specialize (H (nth i eqs []) (nth_In _ _ Hi')); rewrite E in H; lia|].
    intros H e He. apply (In_nth _ _ []) in He as (i & Hi & <-). rewrite E, H by lia. ring. }
  assert (AX : forall z, (forall i, (i < n)%nat -> zsum n (fun k => A i k * z k) = b i) <-> forall i, (i < n)%nat -> x i = det n A * z i).
  { intros z. split.
    - intros H i Hi. unfold x. rewrite (zsum_ext n _ (fun k => adj n A i k * zsum n (fun l => A k l * z l))) by (intros k Hk; rewrite H by auto; reflexivity).
      pose proof (mmul_assoc n n (adj n A) A (fun k _ => z k) i 0%nat) as AS. unfold mmul at 3 4 in AS. rewrite <- AS. unfold mmul at 1.
      rewrite (zsum_ext n _ (fun k => (det n A * delta i k) * z k)) by (intros k Hk; f_equal; now apply adj_l).
      rewrite (zsum_single n _ i); auto; [rewrite delta_eq; ring|]. intros k _ N. rewrite delta_neq by auto. ring.
    - intros H i Hi. apply (Z.mul_reg_l _ _ _ D). rewrite <- zsum_scal. rewrite (zsum_ext n _ (fun k => A i k * x k)) by (intros k Hk; rewrite H by auto; ring).
      unfold x. pose proof (mmul_assoc n n A (adj n A) (fun k _ => ent eqs k 0) i 0%nat) as AS. unfold mmul at 3 4 in AS. rewrite <- AS. unfold mmul at 1.
      rewrite (zsum_ext n _ (fun k => (det n A * delta i k) * b k)) by (intros k Hk; f_equal; now apply adj_r).
      rewrite (zsum_single n _ i); auto; [rewrite delta_eq; ring|]. intros k _ N. rewrite delta_neq by auto. ring. }
  pose proof (sum_mod_zero n (det n A) x D) as M. change (zsum n (fun i => zsum n (fun k => adj n A i k * ent eqs k 0) / det n A)) with (zsum n (fun i => x i / det n A)). destruct (Z.eqb_spec (zsum n x) (det n A * zsum n (fun i => x i / det n A))) as [E|E].
  - left. split; auto. pose proof (proj1 M E) as E'. clear E. rename E' into E. exists (fun i => x i / det n A).
    assert (Qx : forall i, (i < n)%nat -> x i = det n A * (x i / det n A)) by (intros i Hi; destruct (E i Hi) as [q ->]; rewrite Z.div_mul by auto; ring).
    split; [apply SAT; exact (proj2 (AX (fun i => x i / det n A)) Qx)|]. intros x' Hx' i Hi. pose proof (proj1 (AX x') (proj1 (SAT x') Hx') i Hi) as W. rewrite W. rewrite Z.mul_comm, Z.div_mul by auto. reflexivity.
  - right. split; auto. intros z Hz. apply E, (proj2 M). intros i Hi. rewrite (proj1 (AX z) (proj1 (SAT z) Hz) i Hi). exists (z i). ring.
Qed.
