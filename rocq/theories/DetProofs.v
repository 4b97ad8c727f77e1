(** Determinant theory from scratch: the determinant is the alternating multilinear function
    of the rows with value 1 at the identity. *)
From Coq Require Import Permutation.
From Verif Require Import Common ZMat Det Hermite HermiteSpec HermiteProofs HermiteProofs2.
Open Scope Z_scope.

Lemma zsum_head n f : zsum (S n) f = f 0%nat + zsum n (fun i => f (S i)).
Proof. induction n as [|n IH]; [cbn; ring|]. change (zsum (S (S n)) f) with (zsum (S n) f + f (S n)). rewrite IH. cbn [zsum]. ring. Qed.
Lemma zsum_two n f i j : (i < n)%nat -> (j < n)%nat -> i <> j -> (forall k, (k < n)%nat -> k <> i -> k <> j -> f k = 0) -> zsum n f = f i + f j.
Proof.
  intros Hi Hj N H. rewrite (zsum_ext n f (fun k => (if (k =? i)%nat then f i else 0) + (if (k =? j)%nat then f j else 0))).
  - rewrite zsum_add. rewrite (zsum_single n (fun k => if (k =? i)%nat then f i else 0) i Hi), (zsum_single n (fun k => if (k =? j)%nat then f j else 0) j Hj).
    + now rewrite !Nat.eqb_refl.
    + intros k _ K. now rewrite (proj2 (Nat.eqb_neq k j) K).
    + intros k _ K. now rewrite (proj2 (Nat.eqb_neq k i) K).
  - intros k Hk. destruct (Nat.eqb_spec k i) as [K1|K1]; destruct (Nat.eqb_spec k j) as [K2|K2]; subst; try lia; auto.
Qed.
Lemma sgn_S k : sgn_of (S k) = - sgn_of k.
Proof. unfold sgn_of. rewrite Nat.even_succ, <- Nat.negb_even. now destruct (Nat.even k). Qed.
Lemma sgn_sq k : sgn_of k * sgn_of k = 1.
Proof. unfold sgn_of. now destruct (Nat.even k). Qed.
Lemma sgn_add j k : sgn_of (j + k) = sgn_of j * sgn_of k.
Proof. induction j as [|j IH]; cbn [Nat.add]; [change (sgn_of 0) with 1; ring|]. rewrite !sgn_S, IH. ring. Qed.
Lemma skip_lt j k n : (k < n)%nat -> (skip j k < S n)%nat.
Proof. unfold skip. destruct (Nat.ltb_spec k j); lia. Qed.
Lemma skip_neq j k : skip j k <> j.
Proof. unfold skip. destruct (Nat.ltb_spec k j); lia. Qed.
Definition unskip (j k : nat) : nat := if (k <? j)%nat then k else (k - 1)%nat.
Lemma unskip_skip j k : unskip j (skip j k) = k.
Proof. unfold unskip, skip. destruct (Nat.ltb_spec k j); [now rewrite (proj2 (Nat.ltb_lt k j))|]. rewrite (proj2 (Nat.ltb_ge _ _)) by lia. lia. Qed.
Lemma skip_unskip j k : k <> j -> skip j (unskip j k) = k.
Proof. intros H. unfold unskip, skip. destruct (Nat.ltb_spec k j); [now rewrite (proj2 (Nat.ltb_lt k j))|]. rewrite (proj2 (Nat.ltb_ge _ _)) by lia. lia. Qed.
Lemma unskip_lt j k n : (k < S n)%nat -> (j < S n)%nat -> k <> j -> (unskip j k < n)%nat.
Proof. intros. unfold unskip. destruct (Nat.ltb_spec k j); lia. Qed.
Lemma skip_comm j k b : (j <= k)%nat -> skip j (skip k b) = skip (S k) (skip j b).
Proof.
  intros H. unfold skip. destruct (Nat.ltb_spec b k) as [A|A]; destruct (Nat.ltb_spec b j) as [B|B]; try lia.
  - rewrite (proj2 (Nat.ltb_lt b (S k))) by lia. reflexivity.
  - rewrite (proj2 (Nat.ltb_lt (S b) (S k))) by lia. reflexivity.
  - rewrite (proj2 (Nat.ltb_ge (S b) j)), (proj2 (Nat.ltb_ge (S b) (S k))) by lia. reflexivity.
Qed.
Definition setrow (A : zmat) (i : nat) (r : nat -> Z) : zmat := fun a => if (a =? i)%nat then r else A a.
Lemma setrow_at A i r k : setrow A i r i k = r k.
Proof. unfold setrow. now rewrite Nat.eqb_refl. Qed.
Lemma setrow_ne A i r a k : a <> i -> setrow A i r a k = A a k.
Proof. intros H. unfold setrow. now rewrite (proj2 (Nat.eqb_neq a i) H). Qed.
Record ML (n : nat) (D : zmat -> Z) : Prop := {
  ml_ext : forall A B, meq n n A B -> D A = D B;
  ml_lin : forall A i r c s, (i < n)%nat -> D (setrow A i (fun k => r k + c * s k)) = D (setrow A i r) + c * D (setrow A i s);
  ml_alt : forall A i, (S i < n)%nat -> (forall k, (k < n)%nat -> A i k = A (S i) k) -> D A = 0 }.
(** ** The determinant is multilinear and alternating in the rows *)
Lemma det_ext n A B : meq n n A B -> det n A = det n B.
Proof.
  revert A B; induction n as [|n IH]; intros A B H; [reflexivity|]. cbn [det]. apply zsum_ext. intros j Hj. rewrite (H 0%nat j) by lia. f_equal. f_equal. apply IH.
  intros a b Ha Hb. unfold minor. apply H; apply skip_lt; auto.
Qed.
Lemma minor_setrow A i r j a b : minor (setrow A (S i) r) 0 j a b = setrow (minor A 0 j) i (fun b => r (skip j b)) a b.
Proof. unfold minor, setrow, skip at 1. cbn [Nat.ltb Nat.leb]. change (S a =? S i)%nat with (a =? i)%nat. now destruct (a =? i)%nat. Qed.
Lemma det_lin n : forall A i r c s, (i < n)%nat -> det n (setrow A i (fun k => r k + c * s k)) = det n (setrow A i r) + c * det n (setrow A i s).
Proof.
  induction n as [|n IH]; intros A i r c s Hi; [lia|]. cbn [det]. rewrite <- zsum_scal, <- zsum_add. apply zsum_ext. intros j Hj. destruct i as [|i].
  - rewrite !setrow_at. assert (E : forall x, det n (minor (setrow A 0 x) 0 j) = det n (minor A 0 j)) by (intros x; apply det_ext; intros a b _ _; unfold minor; apply setrow_ne; apply skip_neq). rewrite !E. ring.
  - rewrite !setrow_ne by lia. assert (E : forall x, det n (minor (setrow A (S i) x) 0 j) = det n (setrow (minor A 0 j) i (fun b => x (skip j b)))) by (intros x; apply det_ext; intros a b _ _; apply minor_setrow).
    rewrite !E. rewrite (IH (minor A 0 j) i (fun b => r (skip j b)) c (fun b => s (skip j b))) by lia. ring.
Qed.
Lemma pair_cancel N (f : nat -> nat -> Z) : (forall j k, (j <= k)%nat -> (k < N)%nat -> f (S k) j = - f j k) -> zsum (S N) (fun j => zsum N (fun k => f j k)) = 0.
Proof.
  intros H. rewrite (zsum_ext (S N) _ (fun j => zsum N (fun k => if (j <=? k)%nat then f j k else 0) + zsum N (fun k => if (j <=? k)%nat then 0 else f j k))).
  2:{ intros j _. rewrite <- zsum_add. apply zsum_ext. intros k _. destruct (j <=? k)%nat; ring. }
  rewrite zsum_add. cbn [zsum]. rewrite (zsum_zero N (fun k => if (N <=? k)%nat then f N k else 0)) by (intros k Hk; rewrite (proj2 (Nat.leb_gt N k)) by lia; reflexivity).
  change (zsum N (fun j => zsum N (fun k => if (j <=? k)%nat then 0 else f j k)) + zsum N (fun k => if (N <=? k)%nat then 0 else f N k)) with (zsum (S N) (fun j => zsum N (fun k => if (j <=? k)%nat then 0 else f j k))).
  rewrite zsum_head. rewrite (zsum_zero N (fun k => if (0 <=? k)%nat then 0 else f 0%nat k)) by reflexivity.
  rewrite (zsum_swap N N (fun j k => if (j <=? k)%nat then f j k else 0)). rewrite Z.add_0_r, Z.add_0_l, <- zsum_add. apply zsum_zero. intros k Hk. rewrite <- zsum_add. apply zsum_zero. intros j Hj.
  destruct (Nat.leb_spec j k) as [L|L].
  - rewrite (proj2 (Nat.leb_gt (S k) j)) by lia. rewrite H by lia. ring.
  - rewrite (proj2 (Nat.leb_le (S k) j)) by lia. ring.
Qed.
Lemma det_alt n : forall A i, (S i < n)%nat -> (forall k, (k < n)%nat -> A i k = A (S i) k) -> det n A = 0.
Proof.
  induction n as [|n IH]; intros A i Hi E; [lia|]. destruct i as [|i].
  - destruct n as [|n]; [lia|]. cbn [det].
    rewrite (zsum_ext (S (S n)) _ (fun j => zsum (S n) (fun k => A 0%nat j * A 1%nat (skip j k) * (sgn_of j * sgn_of k) * det n (fun a b => A (S (S a)) (skip j (skip k b)))))).
    + apply pair_cancel. intros j k L Hk. rewrite (det_ext n (fun a b => A (S (S a)) (skip (S k) (skip j b))) (fun a b => A (S (S a)) (skip j (skip k b)))) by (intros a b _ _; now rewrite (skip_comm j k b L)).
      rewrite sgn_S. replace (skip (S k) j) with j by (unfold skip; now rewrite (proj2 (Nat.ltb_lt j (S k))) by lia). replace (skip j k) with (S k) by (unfold skip; now rewrite (proj2 (Nat.ltb_ge k j)) by lia).
      rewrite (E (S k)), <- (E j) by lia. ring.
    + intros j Hj. rewrite Z.mul_assoc, <- zsum_scal. apply zsum_ext. intros k Hk. change (minor A 0 j 0%nat k) with (A 1%nat (skip j k)).
      rewrite (det_ext n (minor (minor A 0 j) 0 k) (fun a b => A (S (S a)) (skip j (skip k b)))) by (intros a b _ _; reflexivity). ring.
  - cbn [det]. apply zsum_zero. intros j Hj. rewrite (IH (minor A 0 j) i); [ring|lia|]. intros k Hk. unfold minor. apply E. now apply skip_lt.
Qed.
Lemma det_ML n : ML n (det n).
Proof. constructor; [apply det_ext|apply det_lin|apply det_alt]. Qed.
(** ** Multilinear alternating functions *)
Section MLfacts.
Context (n : nat) (D : zmat -> Z) (M : ML n D).
Lemma ml_add A i r s : (i < n)%nat -> D (setrow A i (fun k => r k + s k)) = D (setrow A i r) + D (setrow A i s).
Proof.
  intros H. rewrite <- (Z.mul_1_l (D (setrow A i s))), <- (ml_lin n D M) by auto. apply (ml_ext n D M). intros a b _ _. unfold setrow. destruct (a =? i)%nat; auto. ring.
Qed.
Lemma ml_row A i : D (setrow A i (A i)) = D A.
Proof. apply (ml_ext n D M). intros a b _ _. unfold setrow. destruct (Nat.eqb_spec a i); now subst. Qed.
(** rows i and j get r and s *)
Definition set2 (A : zmat) i j r s := setrow (setrow A i r) j s.
Lemma set2_add1 A i j r r' s : i <> j -> (i < n)%nat -> D (set2 A i j (fun k => r k + r' k) s) = D (set2 A i j r s) + D (set2 A i j r' s).
Proof.
  intros N H. assert (E : forall x, D (set2 A i j x s) = D (setrow (setrow A j s) i x)).
  { intros x. apply (ml_ext n D M). intros a b _ _. unfold set2, setrow. destruct (Nat.eqb_spec a i); destruct (Nat.eqb_spec a j); subst; auto. congruence. }
  rewrite !E. now apply ml_add.
Qed.
Lemma set2_add2 A i j r s s' : (j < n)%nat -> D (set2 A i j r (fun k => s k + s' k)) = D (set2 A i j r s) + D (set2 A i j r s').
Proof. intros H. unfold set2. now apply ml_add. Qed.
Lemma anti A i j : (i < n)%nat -> (j < n)%nat -> i <> j -> (forall B, (forall k, (k < n)%nat -> B i k = B j k) -> D B = 0) -> D (set2 A i j (A j) (A i)) = - D A.
Proof.
  intros Hi Hj N Z0. assert (V : forall r, D (set2 A i j r r) = 0).
  { intros r. apply Z0. intros k Hk. unfold set2, setrow. rewrite (proj2 (Nat.eqb_neq i j) N), !Nat.eqb_refl. reflexivity. }
  pose proof (V (fun k => A i k + A j k)) as E. rewrite set2_add1, !set2_add2, !V in E by auto.
  assert (X : D (set2 A i j (A i) (A j)) = D A).
  { apply (ml_ext n D M). intros a b _ _. unfold set2, setrow. destruct (Nat.eqb_spec a j); subst; auto. destruct (Nat.eqb_spec a i); subst; auto. }
  lia.
Qed.
Lemma alt_gen d : forall A i, (i + S d < n)%nat -> (forall k, (k < n)%nat -> A i k = A (i + S d)%nat k) -> D A = 0.
Proof.
  induction d as [|d IH]; intros A i H E.
  - apply (ml_alt n D M A i); [lia|]. intros k Hk. rewrite E by auto. f_equal. lia.
  - set (j := (i + S d)%nat). assert (X : D (set2 A j (S j) (A (S j)) (A j)) = - D A).
    { apply anti; try (unfold j; lia). intros B HB. apply (ml_alt n D M B j); [unfold j; lia|]. exact HB. }
    rewrite (IH (set2 A j (S j) (A (S j)) (A j)) i) in X; [lia|unfold j in *; lia|]. intros k Hk. fold j. unfold set2, setrow.
    rewrite (proj2 (Nat.eqb_neq i (S j))), (proj2 (Nat.eqb_neq i j)), (proj2 (Nat.eqb_neq j (S j))), Nat.eqb_refl by (unfold j; lia). rewrite E by auto. f_equal. unfold j. lia.
Qed.
Lemma alt_any A i j : (i < n)%nat -> (j < n)%nat -> i <> j -> (forall k, (k < n)%nat -> A i k = A j k) -> D A = 0.
Proof.
  intros Hi Hj N E. destruct (Nat.lt_ge_cases i j) as [L|L].
  - apply (alt_gen (j - i - 1) A i); [lia|]. intros k Hk. rewrite E by auto. f_equal. lia.
  - apply (alt_gen (i - j - 1) A j); [lia|]. intros k Hk. rewrite <- E by auto. f_equal. lia.
Qed.
Lemma ml_swap A i j : (i < n)%nat -> (j < n)%nat -> i <> j -> D (set2 A i j (A j) (A i)) = - D A.
Proof. intros Hi Hj N. apply anti; auto. intros B. now apply alt_any. Qed.
(** Rows i, 0, 1, ..., i-1, i+1, ... *)
Definition cyc (i : nat) (A : zmat) : zmat := fun a => match a with O => A i | S a' => A (skip i a') end.
Lemma cyc_sign i A : (i < n)%nat -> D (cyc i A) = sgn_of i * D A.
Proof.
  induction i as [|i IH]; intros H.
  - change (sgn_of 0) with 1. rewrite Z.mul_1_l. apply (ml_ext n D M). intros [|a] b _ _; reflexivity.
  - rewrite sgn_S. replace (- sgn_of i * D A) with (- (sgn_of i * D A)) by ring. rewrite <- IH, <- (ml_swap (cyc i A) 0 (S i)) by lia. apply (ml_ext n D M). intros a b _ _.
    unfold set2, setrow. destruct a as [|a].
    + cbn [Nat.eqb cyc]. unfold skip. rewrite (proj2 (Nat.ltb_ge i i)) by lia. reflexivity.
    + cbn [Nat.eqb cyc]. unfold skip. destruct (Nat.eqb_spec a i) as [->|Na]; [rewrite (proj2 (Nat.ltb_lt i (S i))) by lia; reflexivity|].
      destruct (Nat.ltb_spec a (S i)); destruct (Nat.ltb_spec a i); auto; lia.
Qed.
Lemma ml_zero A i r : (i < n)%nat -> (forall k, (k < n)%nat -> r k = 0) -> D (setrow A i r) = 0.
Proof.
  intros H E. assert (X : D (setrow A i r) = D (setrow A i (fun k => r k + 1 * r k))).
  { apply (ml_ext n D M). intros a b _ Hb. unfold setrow. destruct (a =? i)%nat; auto. rewrite E by auto. ring. }
  rewrite (ml_lin n D M) in X by auto. lia.
Qed.
Lemma ml_sum A i m (c : nat -> Z) (r : nat -> nat -> Z) : (i < n)%nat -> D (setrow A i (fun k => zsum m (fun j => c j * r j k))) = zsum m (fun j => c j * D (setrow A i (r j))).
Proof.
  intros H. induction m as [|m IH]; cbn [zsum]; [now apply ml_zero|]. rewrite (ml_lin n D M A i (fun k => zsum m (fun j => c j * r j k)) (c m) (r m)) by auto. now rewrite IH.
Qed.
(** Adding multiples of row 0 to the rows 1, ..., m changes nothing. *)
Lemma ml_clear A (c : nat -> Z) m : (m < n)%nat -> D (fun a k => if ((0 <? a) && (a <=? m))%nat then A a k + c a * A 0%nat k else A a k) = D A.
Proof.
  induction m as [|m IH]; intros H.
  - apply (ml_ext n D M). intros a b _ _. destruct ((0 <? a)%nat) eqn:E1; cbn [andb]; auto. rewrite (proj2 (Nat.leb_gt a 0)); auto. apply Nat.ltb_lt in E1. lia.
  - rewrite <- IH by lia. set (B := fun a k => if ((0 <? a) && (a <=? m))%nat then A a k + c a * A 0%nat k else A a k).
    transitivity (D (setrow B (S m) (fun k => B (S m) k + c (S m) * B 0%nat k))).
    + apply (ml_ext n D M). intros a b _ _. unfold setrow, B. destruct (Nat.eqb_spec a (S m)) as [->|Na].
      * rewrite (proj2 (Nat.leb_le (S m) (S m))), (proj2 (Nat.leb_gt (S m) m)) by lia. reflexivity.
      * destruct (0 <? a)%nat eqn:E1; cbn [andb]; auto. destruct (Nat.leb_spec a (S m)); destruct (Nat.leb_spec a m); auto; lia.
    + rewrite (ml_lin n D M B (S m) (B (S m)) (c (S m)) (B 0%nat)) by lia. rewrite ml_row. rewrite (alt_any (setrow B (S m) (B 0%nat)) 0 (S m)); [ring|lia|lia|lia|]. intros k Hk. rewrite setrow_at, setrow_ne by lia. reflexivity.
Qed.
End MLfacts.
(** ** Uniqueness *)
Definition emb (j : nat) (B : zmat) : zmat := fun a k => match a with O => delta j k | S a' => if (k =? j)%nat then 0 else B a' (unskip j k) end.
Lemma emb_ML m j D : (j < S m)%nat -> ML (S m) D -> ML m (fun B => D (emb j B)).
Proof.
  intros Hj M. set (er := fun (r : nat -> Z) k => if (k =? j)%nat then 0 else r (unskip j k)).
  assert (E : forall A i r, D (emb j (setrow A i r)) = D (setrow (emb j A) (S i) (er r))).
  { intros A i r. apply (ml_ext _ _ M). intros [|a] b _ _; [reflexivity|]. unfold emb, setrow. change (S a =? S i)%nat with (a =? i)%nat. destruct (a =? i)%nat; reflexivity. }
  constructor.
  - intros A B H. apply (ml_ext _ _ M). intros [|a] b Ha Hb; [reflexivity|]. unfold emb. destruct (Nat.eqb_spec b j); auto. apply H; [lia|]. now apply unskip_lt.
  - intros A i r c s Hi. rewrite !E, <- (ml_lin _ _ M) by lia. apply (ml_ext _ _ M). intros a b _ _. unfold setrow. destruct (a =? S i)%nat; auto. unfold er. destruct (b =? j)%nat; ring.
  - intros A i Hi H. apply (ml_alt _ _ M _ (S i)); [lia|]. intros k Hk. unfold emb. destruct (Nat.eqb_spec k j); auto. apply H. now apply unskip_lt.
Qed.
Theorem ml_unique n : forall D, ML n D -> forall A, D A = det n A * D delta.
Proof.
  induction n as [|m IH]; intros D M A.
  - cbn [det]. rewrite Z.mul_1_l. apply (ml_ext _ _ M). intros i j Hi. lia.
  - rewrite <- (ml_row _ _ M A 0). transitivity (D (setrow A 0 (fun k => zsum (S m) (fun j => A 0%nat j * delta j k)))).
    { apply (ml_ext _ _ M). intros a b _ Hb. unfold setrow. destruct (a =? 0)%nat; auto. rewrite (zsum_single (S m) _ b); auto; [rewrite delta_eq; ring|]. intros k _ N. rewrite delta_neq by auto. ring. }
    rewrite (ml_sum _ _ M) by lia. cbn [det]. rewrite Z.mul_comm, <- zsum_scal. apply zsum_ext. intros j Hj.
    assert (X : D (setrow A 0 (delta j)) = D (emb j (minor A 0 j))).
    { rewrite <- (ml_clear _ _ M (setrow A 0 (delta j)) (fun a => - A a j) m) by lia. apply (ml_ext _ _ M). intros [|a] b Ha Hb; [reflexivity|].
      rewrite (proj2 (Nat.leb_le (S a) m)) by lia. cbn [Nat.ltb Nat.leb andb]. rewrite setrow_ne, setrow_at by lia. unfold emb.
      destruct (Nat.eqb_spec b j) as [->|N]; [rewrite delta_eq; ring|]. rewrite delta_neq by auto. unfold minor. rewrite skip_unskip by auto. cbn [skip Nat.ltb Nat.leb]. ring. }
    rewrite X, (IH _ (emb_ML m j D Hj M)). rewrite (ml_ext _ _ M (emb j delta) (cyc j delta)).
    2:{ intros [|a] b Ha Hb; [reflexivity|]. unfold emb, cyc. destruct (Nat.eqb_spec b j) as [->|N]; [rewrite delta_neq; auto; apply skip_neq|].
        unfold delta. destruct (Nat.eqb_spec a (unskip j b)) as [->|N1]; [rewrite skip_unskip by auto; now rewrite Nat.eqb_refl|]. rewrite (proj2 (Nat.eqb_neq (skip j a) b)); auto. intros <-. apply N1. now rewrite unskip_skip. }
    rewrite (cyc_sign _ _ M) by auto. ring.
Qed.
Theorem det_id n : det n delta = 1.
Proof. induction n as [|n IH]; [reflexivity|]. cbn [det]. rewrite (zsum_single (S n) _ 0); [|lia|intros j _ N; rewrite delta_neq by auto; ring].
  rewrite delta_eq. rewrite (det_ext n (minor delta 0 0) delta), IH; [reflexivity|]. intros a b _ _. reflexivity. Qed.
Theorem det_mul n A B : det n (mmul n A B) = det n A * det n B.
Proof.
  rewrite (ml_unique n (fun A => det n (mmul n A B))).
  - f_equal. apply det_ext. intros i j Hi Hj. now apply mmul_id_l.
  - constructor.
    + intros X Y H. apply det_ext. apply mmul_ext; auto. intros ? ? ? ?; reflexivity.
    + intros X i r c s Hi. assert (E : forall x, det n (mmul n (setrow X i x) B) = det n (setrow (mmul n X B) i (fun j => zsum n (fun k => x k * B k j)))).
      { intros x. apply det_ext. intros a b _ _. unfold mmul, setrow. now destruct (a =? i)%nat. }
      rewrite !E, <- det_lin by auto. apply det_ext. intros a b _ _. unfold setrow. destruct (a =? i)%nat; auto. rewrite <- zsum_scal, <- zsum_add. apply zsum_ext. intros; ring.
    + intros X i Hi E. apply (det_alt n _ i Hi). intros k Hk. unfold mmul. apply zsum_ext. intros l Hl. now rewrite E.
Qed.
Lemma det_tr_lin n : forall A i r c s, (i < n)%nat -> det n (fun a b => setrow A i (fun k => r k + c * s k) b a) = det n (fun a b => setrow A i r b a) + c * det n (fun a b => setrow A i s b a).
Proof.
  induction n as [|n IH]; intros A i r c s Hi; [lia|]. cbn [det]. rewrite <- zsum_scal, <- zsum_add. apply zsum_ext. intros j Hj. destruct (Nat.eq_dec j i) as [->|N].
  - rewrite !setrow_at. assert (E : forall x, det n (minor (fun a b => setrow A i x b a) 0 i) = det n (minor (fun a b => A b a) 0 i)) by (intros x; apply det_ext; intros a b _ _; unfold minor; apply setrow_ne; apply skip_neq).
    rewrite !E. ring.
  - rewrite !setrow_ne by auto. set (A' := fun a b => A (skip j a) (S b)).
    assert (E : forall x, det n (minor (fun a b => setrow A i x b a) 0 j) = det n (fun a b => setrow A' (unskip j i) (fun k => x (S k)) b a)).
    { intros x. apply det_ext. intros a b _ _. unfold minor, setrow, A'. cbn [skip Nat.ltb Nat.leb]. destruct (Nat.eqb_spec b (unskip j i)) as [->|Nb]; [rewrite skip_unskip, Nat.eqb_refl by auto; reflexivity|].
      rewrite (proj2 (Nat.eqb_neq (skip j b) i)); auto. intros <-. apply Nb. now rewrite unskip_skip. }
    rewrite !E. rewrite (IH A' (unskip j i) (fun k => r (S k)) c (fun k => s (S k))) by (apply unskip_lt; auto). ring.
Qed.
Lemma det_tr_alt n : forall A i, (S i < n)%nat -> (forall k, (k < n)%nat -> A i k = A (S i) k) -> det n (fun a b => A b a) = 0.
Proof.
  induction n as [|n IH]; intros A i Hi E; [lia|]. cbn [det]. rewrite (zsum_two (S n) _ i (S i)); try lia.
  - rewrite sgn_S, <- (E 0%nat) by lia. rewrite (det_ext n (minor (fun a b => A b a) 0 (S i)) (minor (fun a b => A b a) 0 i)); [ring|].
    intros a b Ha Hb. unfold minor. assert (Sa : (skip 0 a < S n)%nat) by now apply skip_lt. unfold skip at 1 3. destruct (Nat.ltb_spec b (S i)); destruct (Nat.ltb_spec b i); auto; try lia. replace b with i by lia. now apply E.
  - intros j Hj N1 N2. rewrite (det_ext n (minor (fun a b => A b a) 0 j) (fun a b => A (skip j b) (S a))) by (intros a b _ _; reflexivity).
    rewrite (IH (fun a b => A (skip j a) (S b)) (unskip j i)); [ring| |].
    + unfold unskip. destruct (Nat.ltb_spec i j); lia.
    + intros k Hk. rewrite skip_unskip by auto. replace (S (unskip j i)) with (unskip j (S i)); [rewrite skip_unskip by auto; apply E; lia|].
      unfold unskip. destruct (Nat.ltb_spec i j); destruct (Nat.ltb_spec (S i) j); lia.
Qed.
Theorem det_tr n A : det n (fun i j => A j i) = det n A.
Proof.
  rewrite (ml_unique n (fun A => det n (fun i j => A j i))).
  - rewrite (det_ext n (fun i j => delta j i) delta), det_id; [ring|]. intros i j _ _. unfold delta. now rewrite Nat.eqb_sym.
  - constructor; [|apply det_tr_lin|apply det_tr_alt]. intros X Y H. apply det_ext. intros i j Hi Hj. now apply H.
Qed.
(** ** Adjugates *)
Lemma minor_cyc n A i k : det n (minor (cyc i A) 0 k) = det n (minor A i k).
Proof. apply det_ext. intros a b _ _. reflexivity. Qed.
Theorem det_expand n A i : (i < n)%nat -> det n A = zsum n (fun j => A i j * adj n A j i).
Proof.
  intros Hi. destruct n as [|n]; [lia|]. pose proof (cyc_sign _ _ (det_ML (S n)) i A Hi) as C.
  assert (X : det (S n) A = sgn_of i * det (S n) (cyc i A)) by (rewrite C, Z.mul_assoc, sgn_sq; ring). rewrite X. cbn [det]. rewrite <- zsum_scal. apply zsum_ext. intros j Hj.
  unfold adj. replace (S n - 1)%nat with n by lia. rewrite minor_cyc, sgn_add. change (cyc i A 0%nat j) with (A i j). ring.
Qed.
Theorem adj_r n A : meq n n (mmul n A (adj n A)) (fun i j => det n A * delta i j).
Proof.
  intros i j Hi Hj. unfold mmul. destruct (Nat.eq_dec i j) as [<-|N]; [rewrite delta_eq, Z.mul_1_r; symmetry; now apply det_expand|]. rewrite delta_neq, Z.mul_0_r by auto.
  rewrite <- (alt_any n (det n) (det_ML n) (setrow A j (A i)) i j) by (auto; intros k _; rewrite setrow_at, setrow_ne by auto; reflexivity).
  rewrite (det_expand n (setrow A j (A i)) j Hj). apply zsum_ext. intros k Hk. rewrite setrow_at. f_equal. unfold adj. f_equal. apply det_ext. intros a b _ _. unfold minor. symmetry. apply setrow_ne, skip_neq.
Qed.
Theorem adj_l n A : meq n n (mmul n (adj n A) A) (fun i j => det n A * delta i j).
Proof.
  intros i j Hi Hj. pose proof (adj_r n (fun i j => A j i) j i Hj Hi) as E. rewrite det_tr in E. unfold delta in *. rewrite Nat.eqb_sym. rewrite <- E. unfold mmul. apply zsum_ext. intros k Hk.
  unfold adj. rewrite <- (det_tr (n - 1) (minor A k i)). rewrite (Nat.add_comm k i). rewrite Z.mul_comm. f_equal.
Qed.
Theorem det_lower_nz n A : (forall i, (i < n)%nat -> A i i <> 0) -> (forall i j, (i < j)%nat -> (j < n)%nat -> A i j = 0) -> det n A <> 0.
Proof.
  revert A; induction n as [|n IH]; intros A Dg L; [discriminate|]. cbn [det]. rewrite (zsum_single (S n) _ 0); [|lia|intros j Hj N; rewrite (L 0%nat j) by lia; ring].
  assert (X : det n (minor A 0 0) <> 0) by (apply IH; [intros i Hi; apply (Dg (S i)); lia|intros i j H1 H2; apply (L (S i) (S j)); lia]).
  change (sgn_of 0) with 1. pose proof (Dg 0%nat ltac:(lia)). nia.
Qed.
Lemma det_swap n A i j : (i < n)%nat -> (j < n)%nat -> i <> j -> det n (fun a b => if (a =? i)%nat then A j b else if (a =? j)%nat then A i b else A a b) = - det n A.
Proof.
  intros Hi Hj N. rewrite <- (ml_swap n _ (det_ML n) A i j) by auto. apply det_ext. intros a b _ _. unfold set2, setrow. destruct (Nat.eqb_spec a i); destruct (Nat.eqb_spec a j); subst; auto.
Qed.
Lemma some_nonzero n (f : nat -> Z) : (exists i, (i < n)%nat /\ f i <> 0) \/ (forall i, (i < n)%nat -> f i = 0).
Proof.
  induction n as [|n [(i & Hi & H)|H]]; [right; lia|left; exists i; split; auto; lia|]. destruct (Z.eq_dec (f n) 0) as [E|E]; [|left; exists n; split; auto; lia].
  right. intros i Hi. destruct (Nat.eq_dec i n) as [->|N]; auto. apply H. lia.
Qed.
Theorem det_zero_kernel n A : det n A = 0 -> exists v, (exists i, (i < n)%nat /\ v i <> 0) /\ forall j, (j < n)%nat -> zsum n (fun i => v i * A i j) = 0.
Proof.
  intros Z0. set (S0 := map (fun i => map (A i) (seq 0 n)) (seq 0 n)).
  assert (ES : forall i j, (i < n)%nat -> (j < n)%nat -> ent S0 i j = A i j) by (intros i j Hi Hj; unfold ent, S0; rewrite nth_map_seq by auto; now rewrite nth_map_seq).
  destruct (ihermite_ok n n S0 (repeat 0 n)) as (fuel & rank & S' & U & rhs' & (_ & _ & _ & Hr & (V & V1 & V2) & (p & Pp & _ & _ & E) & Dg & Up & Zr) & _).
  { split; [unfold S0; rewrite map_length; apply seq_length|]. apply Forall_forall. intros r Hin. apply in_map_iff in Hin as (i & <- & _). rewrite map_length. apply seq_length. }
  { rewrite repeat_length. lia. }
  assert (PL : forall j, (j < n)%nat -> (nth j p 0%nat < n)%nat).
  { intros j Hj. assert (I : In (nth j p 0%nat) (seq 0 n)) by (apply (Permutation_in _ Pp), nth_In; rewrite (Permutation_length Pp), seq_length; auto). apply in_seq in I. lia. }
  destruct (Nat.eq_dec rank n) as [->|Nr].
  - exfalso. assert (D1 : det n (fun i j => ent S' j i) <> 0) by (apply det_lower_nz; [intros i Hi; specialize (Dg i Hi); lia|intros i j H1 H2; apply Up; lia]).
    apply D1. rewrite det_tr. rewrite (det_ext n (ent S') (mmul n (ent U) (mmul n A (fun k j => delta k (nth j p 0%nat))))).
    + rewrite !det_mul, Z0. ring.
    + intros i j Hi Hj. rewrite <- E by auto. unfold mmul. apply zsum_ext. intros k Hk. rewrite ES by auto. f_equal.
      rewrite (zsum_single n _ (nth j p 0%nat)); auto; [rewrite delta_eq; ring|]. intros l _ N. rewrite delta_neq by auto. ring.
  - assert (Hn : (n - 1 < n)%nat) by lia. exists (ent U (n - 1)). split.
    + destruct (some_nonzero n (ent U (n - 1))) as [X|X]; [exact X|]. exfalso. specialize (V1 (n - 1)%nat (n - 1)%nat Hn Hn). rewrite delta_eq in V1. unfold mmul in V1. rewrite zsum_zero in V1; [discriminate|]. intros k Hk. rewrite X by auto. ring.
    + intros j Hj. assert (I : In j p) by (apply (Permutation_in _ (Permutation_sym Pp)), in_seq; lia). apply (In_nth _ _ 0%nat) in I as (q & Hq & <-). rewrite (Permutation_length Pp), seq_length in Hq.
      rewrite <- (Zr (n - 1)%nat q) by lia. rewrite <- E by auto. apply zsum_ext. intros k Hk. now rewrite ES by auto.
Qed.
