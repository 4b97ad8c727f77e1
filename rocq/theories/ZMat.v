(** Integer matrices as functions with explicit dimensions (a small proof library). *)
From Verif Require Import Common.
Open Scope Z_scope.

(** f 0 + ... + f (n-1) *)
Fixpoint zsum (n : nat) (f : nat -> Z) : Z := match n with O => 0 | S n' => zsum n' f + f n' end.
Definition delta (i j : nat) : Z := if (i =? j)%nat then 1 else 0.
Definition zmat := nat -> nat -> Z.
(** (A B)_{ij}, inner dimension n *)
Definition mmul (n : nat) (A B : zmat) : zmat := fun i j => zsum n (fun k => A i k * B k j).
(** Equality of the leading r x c blocks. *)
Definition meq (r c : nat) (A B : zmat) : Prop := forall i j, (i < r)%nat -> (j < c)%nat -> A i j = B i j.
(** A is invertible over the integers. *)
Definition invertible (n : nat) (A : zmat) : Prop := exists B, meq n n (mmul n A B) delta /\ meq n n (mmul n B A) delta.

Lemma zsum_ext n f g : (forall i, (i < n)%nat -> f i = g i) -> zsum n f = zsum n g.
Proof. induction n as [|n IH]; intros H; cbn [zsum]; auto. rewrite IH by (intros; apply H; lia). now rewrite H by lia. Qed.
Lemma zsum_add n f g : zsum n (fun i => f i + g i) = zsum n f + zsum n g.
Proof. induction n as [|n IH]; cbn [zsum]; auto. rewrite IH. ring. Qed.
Lemma zsum_scal n c f : zsum n (fun i => c * f i) = c * zsum n f.
Proof. induction n as [|n IH]; cbn [zsum]; [ring|]. rewrite IH. ring. Qed.
Lemma zsum_0 n : zsum n (fun _ => 0) = 0.
Proof. induction n as [|n IH]; cbn [zsum]; auto. rewrite IH. ring. Qed.
Lemma zsum_zero n f : (forall i, (i < n)%nat -> f i = 0) -> zsum n f = 0.
Proof. intros H. rewrite (zsum_ext n f (fun _ => 0)) by auto. apply zsum_0. Qed.
Lemma zsum_swap n m f : zsum n (fun i => zsum m (fun j => f i j)) = zsum m (fun j => zsum n (fun i => f i j)).
Proof. induction n as [|n IH]; cbn [zsum]; [now rewrite zsum_0|]. now rewrite IH, <- zsum_add. Qed.
Lemma zsum_single n f k : (k < n)%nat -> (forall i, (i < n)%nat -> i <> k -> f i = 0) -> zsum n f = f k.
Proof.
  induction n as [|n IH]; intros Hk H; [lia|]. cbn [zsum]. destruct (Nat.eq_dec k n) as [->|N].
  - rewrite zsum_zero by (intros; apply H; lia). ring.
  - rewrite IH by (try lia; intros; apply H; lia). rewrite (H n) by lia. ring.
Qed.
Lemma delta_eq i : delta i i = 1. Proof. unfold delta. now rewrite Nat.eqb_refl. Qed.
Lemma delta_neq i j : i <> j -> delta i j = 0. Proof. intros H. unfold delta. now rewrite (proj2 (Nat.eqb_neq i j)). Qed.
Lemma mmul_ext n r c A A' B B' : meq r n A A' -> meq n c B B' -> meq r c (mmul n A B) (mmul n A' B').
Proof. intros H K i j Hi Hj. unfold mmul. apply zsum_ext. intros k Hk. now rewrite H, K. Qed.
Lemma mmul_assoc n m A B C i j : mmul m (mmul n A B) C i j = mmul n A (mmul m B C) i j.
Proof.
  unfold mmul. rewrite (zsum_ext m _ (fun k => zsum n (fun l => A i l * B l k * C k j))).
  - rewrite zsum_swap. apply zsum_ext. intros l Hl. rewrite <- zsum_scal. apply zsum_ext. intros; ring.
  - intros k Hk. rewrite Z.mul_comm, <- zsum_scal. apply zsum_ext. intros; ring.
Qed.
Lemma mmul_id_l n B i j : (i < n)%nat -> mmul n delta B i j = B i j.
Proof. intros H. unfold mmul. rewrite (zsum_single n _ i); auto; [rewrite delta_eq; ring|]. intros k _ N. rewrite delta_neq by auto. ring. Qed.
Lemma mmul_id_r n A i j : (j < n)%nat -> mmul n A delta i j = A i j.
Proof. intros H. unfold mmul. rewrite (zsum_single n _ j); auto; [rewrite delta_eq; ring|]. intros k _ N. rewrite delta_neq by auto. ring. Qed.
Lemma invertible_id n : invertible n delta.
Proof. exists delta. split; intros i j Hi Hj; now apply mmul_id_l. Qed.
Lemma invertible_ext n A B : meq n n A B -> invertible n A -> invertible n B.
Proof.
  intros E (V & H & K). exists V. split; intros i j Hi Hj.
  - rewrite <- H by auto. apply (mmul_ext n n n B A V V); auto; [|intros ? ? ? ?; reflexivity]. intros a b Ha Hb. symmetry. now apply E.
  - rewrite <- K by auto. apply (mmul_ext n n n V V B A); auto; [intros ? ? ? ?; reflexivity|]. intros a b Ha Hb. symmetry. now apply E.
Qed.
Lemma invertible_mul n A B : invertible n A -> invertible n B -> invertible n (mmul n A B).
Proof.
  intros (V & H1 & H2) (W & K1 & K2). exists (mmul n W V). split; intros i j Hi Hj.
  - rewrite mmul_assoc. rewrite <- H1 by auto. apply (mmul_ext n n n); auto; [intros ? ? ? ?; reflexivity|]. intros a b Ha Hb. rewrite <- mmul_assoc.
    rewrite <- (mmul_id_l n V a b Ha). apply (mmul_ext n n n); auto. intros ? ? ? ?; reflexivity.
  - rewrite mmul_assoc. rewrite <- K2 by auto. apply (mmul_ext n n n); auto; [intros ? ? ? ?; reflexivity|]. intros a b Ha Hb. rewrite <- mmul_assoc.
    rewrite <- (mmul_id_l n B a b Ha). apply (mmul_ext n n n); auto. intros ? ? ? ?; reflexivity.
Qed.
(** ** Elementary row operations *)
(** Row c becomes s * row m, row m becomes row c. *)
Definition swap_e (c m : nat) (s : Z) : zmat := fun i j =>
  if (i =? c)%nat then s * delta m j else if (i =? m)%nat then delta c j else delta i j.
(** Row i becomes row i - t_i * row c. *)
Definition red_e (c : nat) (t : nat -> Z) : zmat := fun i j => delta i j - t i * delta c j.
Lemma zsum_delta n a f : (a < n)%nat -> zsum n (fun k => delta a k * f k) = f a.
Proof. intros H. rewrite (zsum_single n _ a); auto; [rewrite delta_eq; ring|]. intros k _ N. rewrite delta_neq by auto. ring. Qed.
Lemma swap_mul n c m s B i j : (c < n)%nat -> (m < n)%nat -> (i < n)%nat ->
  mmul n (swap_e c m s) B i j = if (i =? c)%nat then s * B m j else if (i =? m)%nat then B c j else B i j.
Proof.
  intros Hc Hm Hi. unfold mmul, swap_e. destruct (i =? c)%nat.
  - rewrite (zsum_ext n _ (fun k => s * (delta m k * B k j))) by (intros; ring). now rewrite zsum_scal, zsum_delta.
  - destruct (i =? m)%nat; now rewrite zsum_delta.
Qed.
Lemma red_mul n c t B i j : (c < n)%nat -> (i < n)%nat -> mmul n (red_e c t) B i j = B i j - t i * B c j.
Proof.
  intros Hc Hi. unfold mmul, red_e. rewrite (zsum_ext n _ (fun k => delta i k * B k j + (- t i) * (delta c k * B k j))) by (intros; ring).
  rewrite zsum_add, zsum_scal, !zsum_delta by auto. ring.
Qed.
Lemma swap_inv n c m s : (c < n)%nat -> (m < n)%nat -> s * s = 1 -> invertible n (swap_e c m s).
Proof.
  intros Hc Hm Hs. destruct (Nat.eq_dec c m) as [<-|N].
  - exists (swap_e c c s). split; intros i j Hi Hj; rewrite swap_mul by auto; unfold swap_e; rewrite Nat.eqb_refl; (destruct (Nat.eqb_spec i c) as [->|N1]; [rewrite Z.mul_assoc, Hs; ring|reflexivity]).
  - exists (fun i j => if (i =? m)%nat then s * delta c j else if (i =? c)%nat then delta m j else delta i j).
    assert (N' : (c =? m)%nat = false) by now apply Nat.eqb_neq. assert (N'' : (m =? c)%nat = false) by (apply Nat.eqb_neq; auto).
    split; intros i j Hi Hj.
    + rewrite swap_mul by auto. rewrite !Nat.eqb_refl, N'. destruct (Nat.eqb_spec i c) as [->|N1]; [rewrite Z.mul_assoc, Hs; ring|]. destruct (Nat.eqb_spec i m) as [->|N2]; reflexivity.
    + change (fun i j : nat => if (i =? m)%nat then s * delta c j else if (i =? c)%nat then delta m j else delta i j) with (swap_e m c s). rewrite swap_mul by auto.
      unfold swap_e. rewrite !Nat.eqb_refl, N''. destruct (Nat.eqb_spec i m) as [->|N1]; [rewrite Z.mul_assoc, Hs; ring|]. destruct (Nat.eqb_spec i c) as [->|N2]; reflexivity.
Qed.
Lemma red_inv n c t : (c < n)%nat -> t c = 0 -> invertible n (red_e c t).
Proof.
  intros Hc Ht. exists (red_e c (fun i => - t i)). split; intros i j Hi Hj; rewrite red_mul by auto; unfold red_e; rewrite Ht; ring.
Qed.
