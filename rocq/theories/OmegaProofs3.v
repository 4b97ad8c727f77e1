(** LLL-reduced bases: the first vector is short, and short vectors have small coefficients. *)
From Coq Require Import QArith Qpower Qfield Lqa.
From Verif Require Import Common ZMat Hermite HermiteProofs Det DetProofs Piped PipedSpec PipedProofs PipedProofs3 OmegaSpec.
Open Scope Q_scope.

Lemma sumq_nonneg n f : (forall k, (k < n)%nat -> 0 <= f k) -> 0 <= sumq n f.
Proof. induction n as [|n IH]; intros H; cbn [sumq]; [lra|]. assert (0 <= sumq n f) by (apply IH; intros; apply H; lia). assert (0 <= f n) by (apply H; lia). lra. Qed.
Lemma sumq_ge_term n f i : (forall k, (k < n)%nat -> 0 <= f k) -> (i < n)%nat -> f i <= sumq n f.
Proof.
  induction n as [|n IH]; intros H Hi; [lia|]. cbn [sumq]. destruct (Nat.eq_dec i n) as [->|N].
  - assert (0 <= sumq n f) by (apply sumq_nonneg; intros; apply H; lia). lra.
  - assert (f i <= sumq n f) by (apply IH; [intros; apply H; lia|lia]). assert (0 <= f n) by (apply H; lia). lra.
Qed.
Lemma sumq_le n f h : (forall k, (k < n)%nat -> f k <= h k) -> sumq n f <= sumq n h.
Proof. induction n as [|n IH]; intros H; cbn [sumq]; [lra|]. assert (sumq n f <= sumq n h) by (apply IH; intros; apply H; lia). assert (f n <= h n) by (apply H; lia). lra. Qed.
Lemma sumq_const n c : sumq n (fun _ => c) == inject_Z (Z.of_nat n) * c.
Proof. induction n as [|n IH]; cbn [sumq]; [ring|]. rewrite IH, Nat2Z.inj_succ. unfold Z.succ. rewrite inject_Z_plus. ring. Qed.
Lemma sumq_tail n i f : (i <= n)%nat -> (forall k, (i <= k)%nat -> (k < n)%nat -> f k == 0) -> sumq n f == sumq i f.
Proof. induction n as [|n IH]; intros L H; [replace i with 0%nat by lia; reflexivity|]. destruct (Nat.eq_dec i (S n)) as [->|N]; [reflexivity|]. cbn [sumq]. rewrite (IH ltac:(lia)) by (intros; apply H; lia). rewrite (H n) by lia. ring. Qed.

Section Reduced.
Context (n : nat) (L : list (list Z)) (g mu : nat -> nat -> Q).
Definition dot i j := sumq n (fun k => g i k * g j k).
Context (EL : forall i k, (i < n)%nat -> (k < n)%nat -> inject_Z (vat L i k) == g i k + sumq i (fun j => mu i j * g j k)).
Context (OR : forall i j, (i < j)%nat -> (j < n)%nat -> dot i j == 0).
Context (SR : forall i j, (j < i)%nat -> (i < n)%nat -> - (1 # 2) <= mu i j <= 1 # 2).
Context (LO : forall i, (S i < n)%nat -> dot i i <= dot (S i) (S i) + mu (S i) i * mu (S i) i * dot i i).
Lemma dot_sym i j : dot i j == dot j i.
Proof. apply sumq_ext. intros; ring. Qed.
Lemma dot_pos i : 0 <= dot i i.
Proof. apply sumq_nonneg. intros k _. nra. Qed.
Definition M (i j : nat) : Q := if (j =? i)%nat then 1 else if (j <? i)%nat then mu i j else 0.
Lemma M_diag i : M i i = 1.
Proof. unfold M. now rewrite Nat.eqb_refl. Qed.
Lemma M_up i j : (i < j)%nat -> M i j = 0.
Proof. intros H. unfold M. rewrite (proj2 (Nat.eqb_neq j i)) by lia. destruct (Nat.ltb_spec j i); [lia|reflexivity]. Qed.
Lemma M_low i j : (j < i)%nat -> M i j = mu i j.
Proof. intros H. unfold M. rewrite (proj2 (Nat.eqb_neq j i)) by lia. now rewrite (proj2 (Nat.ltb_lt j i)) by lia. Qed.
Lemma M_half i j : (j < i)%nat -> (i < n)%nat -> - (1 # 2) <= M i j <= 1 # 2.
Proof. intros H H1. rewrite M_low by auto. now apply SR. Qed.
Lemma row_M i k : (i < n)%nat -> (k < n)%nat -> inject_Z (vat L i k) == sumq n (fun l => M i l * g l k).
Proof.
  intros Hi Hk. rewrite EL by auto. rewrite (sumq_tail n (S i)) by (try lia; intros l Hl _; rewrite M_up by lia; ring). cbn [sumq]. rewrite M_diag.
  rewrite (sumq_ext i (fun l => M i l * g l k) (fun l => mu i l * g l k)) by (intros l Hl; rewrite M_low by auto; reflexivity). ring.
Qed.
Lemma lovasz i : (S i < n)%nat -> 3 * dot i i <= 4 * dot (S i) (S i).
Proof.
  intros H. pose proof (LO i H) as A. pose proof (SR (S i) i ltac:(lia) H) as B. pose proof (dot_pos i) as C. assert (mu (S i) i * mu (S i) i <= 1 # 4) by nra.
  assert (mu (S i) i * mu (S i) i * dot i i <= (1 # 4) * dot i i) by (apply Qmult_le_compat_r; auto). lra.
Qed.
(** Coefficients with respect to the g. *)
Section Vector.
Context (c : nat -> Z) (w : nat -> Q) (EW : forall k, (k < n)%nat -> w k == sumq n (fun i => inject_Z (c i) * inject_Z (vat L i k))).
Definition co (l : nat) : Q := sumq n (fun i => inject_Z (c i) * M i l).
Lemma w_co k : (k < n)%nat -> w k == sumq n (fun l => co l * g l k).
Proof.
  intros Hk. rewrite EW by auto. rewrite (sumq_ext n _ (fun i => sumq n (fun l => inject_Z (c i) * M i l * g l k))).
  - rewrite sumq_swap. apply sumq_ext. intros l Hl. unfold co. rewrite (Qmult_comm (sumq n _)), <- sumq_scal. apply sumq_ext. intros; ring.
  - intros i Hi. rewrite row_M, <- sumq_scal by auto. apply sumq_ext. intros; ring.
Qed.
Lemma w_norm : sumq n (fun k => w k * w k) == sumq n (fun l => co l * co l * dot l l).
Proof.
  rewrite (sumq_ext n _ (fun k => sumq n (fun l => sumq n (fun p => co l * co p * (g l k * g p k))))).
  - rewrite sumq_swap. apply sumq_ext. intros l Hl. rewrite sumq_swap. rewrite (sumq_single n _ l Hl).
    + rewrite sumq_scal. reflexivity.
    + intros p Hp N. rewrite sumq_scal. fold (dot l p). destruct (Nat.lt_ge_cases l p) as [X|X]; [rewrite OR by auto|rewrite dot_sym, OR by lia]; ring.
  - intros k Hk. rewrite w_co by auto. rewrite <- sumq_scal. rewrite (sumq_ext n _ (fun l => sumq n (fun p => co l * co p * (g l k * g p k)))); [reflexivity|].
    intros l Hl. rewrite (Qmult_comm (sumq n _)), <- sumq_scal. apply sumq_ext. intros; ring.
Qed.
Lemma co_tail l : (l < n)%nat -> co l == inject_Z (c l) + sumq n (fun i => if (l <? i)%nat then inject_Z (c i) * mu i l else 0).
Proof.
  intros Hl. unfold co. rewrite (sumq_ext n _ (fun i => (if (i =? l)%nat then inject_Z (c l) else 0) + (if (l <? i)%nat then inject_Z (c i) * mu i l else 0))).
  - rewrite sumq_add. rewrite (sumq_single n (fun i => if (i =? l)%nat then inject_Z (c l) else 0) l Hl) by (intros i _ N; rewrite (proj2 (Nat.eqb_neq i l) N); reflexivity). rewrite Nat.eqb_refl. reflexivity.
  - intros i Hi. destruct (Nat.eqb_spec i l) as [->|N]; [rewrite M_diag, Nat.ltb_irrefl; ring|]. destruct (Nat.ltb_spec l i) as [X|X]; [rewrite M_low by auto; ring|rewrite M_up by lia; ring].
Qed.
End Vector.
Lemma dot_chain i : (i < n)%nat -> (3 # 4) ^ Z.of_nat i * dot 0 0 <= dot i i.
Proof.
  induction i as [|i IH]; intros Hi; [cbn; lra|]. specialize (IH ltac:(lia)). pose proof (lovasz i Hi) as A. rewrite Nat2Z.inj_succ. unfold Z.succ. rewrite Qpower_plus by discriminate. change ((3 # 4) ^ 1) with (3 # 4). lra.
Qed.
End Reduced.
