(** The points of the fundamental parallelepiped, in coordinates. *)
From Coq Require Import QArith.
From Verif Require Import Common ZMat Det DetProofs.
Open Scope Z_scope.

Section Core.
Context (n : nat) (A F : zmat) (dl sc : nat -> Z) (dd : Z).
Context (DN : det n A <> 0) (DD : 0 < dd).
Context (PAIR : forall i j, (i < n)%nat -> (j < n)%nat -> zsum n (fun k => A i k * F j k) = if (i =? j)%nat then - dl j else 0).
Context (DL : forall j, (j < n)%nat -> 0 < dl j) (SC : forall j, (j < n)%nat -> sc j * dl j = dd).
Definition pr (z : nat -> Z) (i : nat) : Z := zsum n (fun k => z k * F i k).
Lemma dual_left k l : (k < n)%nat -> (l < n)%nat -> zsum n (fun i => F i k * sc i * A i l) = if (k =? l)%nat then - dd else 0.
Proof.
  intros Hk Hl. set (B := fun a b => F b a * sc b).
  assert (AB : meq n n (mmul n A B) (fun i j => - dd * delta i j)).
  { intros i j Hi Hj. unfold mmul, B. rewrite (zsum_ext n _ (fun a => sc j * (A i a * F j a))) by (intros; ring). rewrite zsum_scal, PAIR by auto. unfold delta. destruct (i =? j)%nat; [rewrite <- (SC j Hj); ring|ring]. }
  assert (E1 : forall a b, (a < n)%nat -> (b < n)%nat -> det n A * B a b = - dd * adj n A a b).
  { intros a b Ha Hb. transitivity (mmul n (mmul n (adj n A) A) B a b).
    - unfold mmul at 1. rewrite (zsum_single n _ a Ha); [rewrite (adj_l n A a a Ha Ha), delta_eq; ring|]. intros i Hi N. rewrite (adj_l n A a i Ha Hi), delta_neq by auto. ring.
    - rewrite mmul_assoc. unfold mmul at 1. rewrite (zsum_single n _ b Hb); [rewrite (AB b b Hb Hb), delta_eq; ring|]. intros i Hi N. rewrite (AB i b Hi Hb), delta_neq by auto. ring. }
  assert (E2 : det n A * zsum n (fun i => B k i * A i l) = det n A * (if (k =? l)%nat then - dd else 0)).
  { rewrite <- zsum_scal. rewrite (zsum_ext n _ (fun i => - dd * (adj n A k i * A i l))) by (intros i Hi; rewrite Z.mul_assoc, E1 by auto; ring). rewrite zsum_scal. change (- dd * mmul n (adj n A) A k l = det n A * (if (k =? l)%nat then - dd else 0)).
    rewrite (adj_l n A k l Hk Hl). unfold delta. destruct (k =? l)%nat; ring. }
  apply Z.mul_reg_l in E2; auto.
Qed.
(** Every integer vector is recovered from its pairings with the facets. *)
Lemma recover z k : (k < n)%nat -> zsum n (fun i => - pr z i * sc i * A i k) = dd * z k.
Proof.
  intros Hk. unfold pr. rewrite (zsum_ext n _ (fun i => zsum n (fun l => - z l * (F i l * sc i * A i k)))).
  - rewrite zsum_swap. rewrite (zsum_ext n _ (fun l => - z l * (if (l =? k)%nat then - dd else 0))) by (intros l Hl; rewrite zsum_scal, dual_left by auto; reflexivity).
    rewrite (zsum_single n _ k Hk); [rewrite Nat.eqb_refl; ring|]. intros i Hi N. rewrite (proj2 (Nat.eqb_neq i k)) by auto. ring.
  - intros i Hi. rewrite (zsum_ext n (fun l => - z l * (F i l * sc i * A i k)) (fun l => - (sc i * A i k) * (z l * F i l))) by (intros; ring). rewrite zsum_scal. ring.
Qed.
Lemma pr_ext z z' i : (forall k, (k < n)%nat -> z k = z' k) -> pr z i = pr z' i.
Proof. intros H. unfold pr. apply zsum_ext. intros k Hk. now rewrite H. Qed.
Lemma pr_add z z' i : pr (fun k => z k + z' k) i = pr z i + pr z' i.
Proof. unfold pr. rewrite <- zsum_add. apply zsum_ext. intros; ring. Qed.
Lemma pr_scal c z i : pr (fun k => c * z k) i = c * pr z i.
Proof. unfold pr. rewrite <- zsum_scal. apply zsum_ext. intros; ring. Qed.
Lemma pr_rays c i : (i < n)%nat -> pr (fun k => zsum n (fun j => c j * A j k)) i = - dl i * c i.
Proof.
  intros Hi. unfold pr. rewrite (zsum_ext n _ (fun k => zsum n (fun j => c j * (A j k * F i k)))) by (intros k Hk; rewrite Z.mul_comm, <- zsum_scal; apply zsum_ext; intros; ring).
  rewrite zsum_swap. rewrite (zsum_single n _ i Hi); [rewrite zsum_scal, PAIR, Nat.eqb_refl by auto; ring|]. intros j Hj N. rewrite zsum_scal, PAIR by auto. rewrite (proj2 (Nat.eqb_neq j i)) by auto. ring.
Qed.
Lemma pr_inj z z' : (forall i, (i < n)%nat -> pr z i = pr z' i) -> forall k, (k < n)%nat -> z k = z' k.
Proof.
  intros H k Hk. apply (Z.mul_reg_l _ _ dd); [lia|]. rewrite <- !recover by auto. apply zsum_ext. intros i Hi. now rewrite H.
Qed.
(** W diag(nn) = U R with U = A^T: integer basis adapted to the lattice of the rays. *)
Context (W Wi R Ri : zmat) (nn : nat -> Z).
Context (WI1 : meq n n (mmul n W Wi) delta) (WI2 : meq n n (mmul n Wi W) delta) (RI1 : meq n n (mmul n R Ri) delta).
Context (FAC : forall i j, (i < n)%nat -> (j < n)%nat -> W i j * nn j = zsum n (fun k => A k i * R k j)).
Context (NN : forall j, (j < n)%nat -> 0 < nn j).
Definition wk (k : nat -> Z) (l : nat) : Z := zsum n (fun j => W l j * k j).
Lemma wk_add a b l : wk (fun j => a j + b j) l = wk a l + wk b l.
Proof. unfold wk. rewrite <- zsum_add. apply zsum_ext. intros; ring. Qed.
Lemma wk_nn q l : (l < n)%nat -> wk (fun j => nn j * q j) l = zsum n (fun i => zsum n (fun j => R i j * q j) * A i l).
Proof.
  intros Hl. unfold wk. rewrite (zsum_ext n _ (fun j => zsum n (fun k => A k l * R k j * q j))) by (intros j Hj; rewrite Z.mul_assoc, FAC by auto; rewrite Z.mul_comm, <- zsum_scal; apply zsum_ext; intros; ring).
  rewrite zsum_swap. apply zsum_ext. intros k Hk. rewrite (zsum_ext n _ (fun j => A k l * (R k j * q j))) by (intros; ring). rewrite zsum_scal. ring.
Qed.
Lemma wk_inv z l : (l < n)%nat -> wk (fun j => zsum n (fun a => Wi j a * z a)) l = z l.
Proof.
  intros Hl. unfold wk. rewrite (zsum_ext n _ (fun j => zsum n (fun a => W l j * Wi j a * z a))) by (intros j Hj; rewrite <- zsum_scal; apply zsum_ext; intros; ring).
  rewrite zsum_swap. rewrite (zsum_ext n _ (fun a => mmul n W Wi l a * z a)) by (intros a Ha; unfold mmul; rewrite Z.mul_comm, <- zsum_scal; apply zsum_ext; intros; ring).
  rewrite (zsum_single n _ l Hl); [rewrite (WI1 l l Hl Hl), delta_eq; ring|]. intros a Ha N. rewrite (WI1 l a Hl Ha), delta_neq by auto. ring.
Qed.
Lemma wk_cancel a b : (forall l, (l < n)%nat -> wk a l = wk b l) -> forall j, (j < n)%nat -> a j = b j.
Proof.
  intros H. assert (G : forall a j, (j < n)%nat -> zsum n (fun l => Wi j l * wk a l) = a j).
  { intros a0 j Hj. unfold wk. rewrite (zsum_ext n _ (fun l => zsum n (fun i => Wi j l * W l i * a0 i))) by (intros l Hl; rewrite <- zsum_scal; apply zsum_ext; intros; ring).
    rewrite zsum_swap. rewrite (zsum_ext n _ (fun i => mmul n Wi W j i * a0 i)) by (intros i Hi; unfold mmul; rewrite Z.mul_comm, <- zsum_scal; apply zsum_ext; intros; ring).
    rewrite (zsum_single n _ j Hj); [rewrite (WI2 j j Hj Hj), delta_eq; ring|]. intros i Hi N. rewrite (WI2 j i Hj Hi), delta_neq by auto. ring. }
  intros j Hj. rewrite <- (G a j Hj), <- (G b j Hj). apply zsum_ext. intros l Hl. now rewrite H.
Qed.
(** The generated point: multipliers m, sum of m_i sc_i ray_i over dd. *)
Context (be : nat -> Z).
Definition red (k : nat -> Z) (i : nat) : Z := (be i - pr (wk k) i) mod dl i.
Definition quo (k : nat -> Z) (i : nat) : Z := (be i - pr (wk k) i) / dl i.
Definition mult (k : nat -> Z) (i : nat) : Z := red k i - be i.
Definition pt (k : nat -> Z) (l : nat) : Z := wk k l - zsum n (fun i => quo k i * A i l).
Lemma mult_eq k i : (i < n)%nat -> mult k i = - pr (wk k) i - dl i * quo k i.
Proof. intros Hi. unfold mult, red, quo. pose proof (Z.div_mod (be i - pr (wk k) i) (dl i) ltac:(specialize (DL i Hi); lia)). lia. Qed.
Lemma pr_pt k i : (i < n)%nat -> pr (pt k) i = - mult k i.
Proof.
  intros Hi. rewrite mult_eq by auto. rewrite (pr_ext (pt k) (fun l => wk k l + -1 * zsum n (fun i => quo k i * A i l))) by (intros; unfold pt; ring). rewrite pr_add, pr_scal, pr_rays by auto. ring.
Qed.
Lemma sum_mult k l : (l < n)%nat -> zsum n (fun i => mult k i * sc i * A i l) = dd * pt k l.
Proof. intros Hl. rewrite <- recover by auto. apply zsum_ext. intros i Hi. rewrite pr_pt by auto. ring. Qed.
Lemma pt_window k i : (i < n)%nat -> be i - dl i < pr (pt k) i <= be i.
Proof. intros Hi. rewrite pr_pt by auto. unfold mult, red. pose proof (Z.mod_pos_bound (be i - pr (wk k) i) (dl i) (DL i Hi)). lia. Qed.
Lemma pt_onto x : (forall i, (i < n)%nat -> be i - dl i < pr x i <= be i) -> exists k, (forall j, (j < n)%nat -> 0 <= k j < nn j) /\ forall l, (l < n)%nat -> pt k l = x l.
Proof.
  intros H. set (k' := fun j => zsum n (fun a => Wi j a * x a)). exists (fun j => k' j mod nn j). split; [intros j Hj; now apply Z.mod_pos_bound, NN|]. apply pr_inj. intros i Hi. rewrite pr_pt by auto.
  set (k := fun j => k' j mod nn j). set (q := fun j => k' j / nn j).
  assert (EX : forall l, (l < n)%nat -> x l = wk k l + zsum n (fun i => zsum n (fun j => R i j * q j) * A i l)).
  { intros l Hl. rewrite <- (wk_inv x l Hl). fold k'. rewrite <- wk_nn by auto. rewrite <- wk_add. unfold wk. apply zsum_ext. intros j Hj. f_equal. unfold k, q. pose proof (Z.div_mod (k' j) (nn j) ltac:(specialize (NN j Hj); lia)). lia. }
  set (e := fun i => zsum n (fun j => R i j * q j)) in EX.
  assert (PX : pr x i = pr (wk k) i - dl i * e i).
  { rewrite (pr_ext x (fun l => wk k l + zsum n (fun i => e i * A i l))) by auto. rewrite pr_add, pr_rays by auto. ring. }
  specialize (H i Hi). unfold mult, red. assert (M : (be i - pr (wk k) i) mod dl i = be i - pr x i).
  { symmetry. apply (Z.mod_unique _ _ (- e i)); [left; lia|lia]. }
  rewrite M. lia.
Qed.
Lemma pt_inj k k' : (forall j, (j < n)%nat -> 0 <= k j < nn j) -> (forall j, (j < n)%nat -> 0 <= k' j < nn j) -> (forall l, (l < n)%nat -> pt k l = pt k' l) -> forall j, (j < n)%nat -> k j = k' j.
Proof.
  intros B B' H. set (e := fun i => quo k i - quo k' i). set (q := fun j => zsum n (fun a => Ri j a * e a)).
  assert (RQ : forall i, (i < n)%nat -> zsum n (fun j => R i j * q j) = e i).
  { intros i Hi. unfold q. rewrite (zsum_ext n _ (fun j => zsum n (fun a => R i j * Ri j a * e a))) by (intros j Hj; rewrite <- zsum_scal; apply zsum_ext; intros; ring). rewrite zsum_swap.
    rewrite (zsum_ext n _ (fun a => mmul n R Ri i a * e a)) by (intros a Ha; unfold mmul; rewrite Z.mul_comm, <- zsum_scal; apply zsum_ext; intros; ring).
    rewrite (zsum_single n _ i Hi); [rewrite (RI1 i i Hi Hi), delta_eq; ring|]. intros a Ha N. rewrite (RI1 i a Hi Ha), delta_neq by auto. ring. }
  assert (E : forall j, (j < n)%nat -> k j = k' j + nn j * q j).
  { apply (wk_cancel k (fun j => k' j + nn j * q j)). intros l Hl. rewrite wk_add, wk_nn by auto. rewrite (zsum_ext n (fun i => zsum n (fun j => R i j * q j) * A i l) (fun i => quo k i * A i l + -1 * (quo k' i * A i l))) by (intros i Hi; rewrite RQ by auto; unfold e; ring).
    rewrite zsum_add, zsum_scal. specialize (H l Hl). unfold pt in H. lia. }
  intros j Hj. specialize (E j Hj). specialize (B j Hj). specialize (B' j Hj). assert (q j = 0) by nia. nia.
Qed.
End Core.
