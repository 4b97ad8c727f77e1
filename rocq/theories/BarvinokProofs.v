(** The interval argument behind the signed decomposition. *)
From Coq Require Import QArith Qfield Lqa.
From Verif Require Import Common ZMat PipedSpec PipedProofs3.
Open Scope Q_scope.

Lemma argmin n (P : nat -> bool) (f : nat -> Q) : (forall k, (k < n)%nat -> P k = false) \/ exists p, (p < n)%nat /\ P p = true /\ forall k, (k < n)%nat -> P k = true -> f p <= f k.
Proof.
  induction n as [|n IH]; [left; intros; lia|]. destruct (P n) eqn:E.
  - right. destruct IH as [IH|(p & Hp & Pp & M)].
    + exists n. split; [lia|]. split; auto. intros k Hk Pk. destruct (Nat.eq_dec k n) as [->|]; [apply Qle_refl|]. rewrite IH in Pk by lia. discriminate.
    + destruct (Qlt_le_dec (f n) (f p)) as [L|L].
      * exists n. split; [lia|]. split; auto. intros k Hk Pk. destruct (Nat.eq_dec k n) as [->|]; [apply Qle_refl|]. apply Qle_trans with (f p); [now apply Qlt_le_weak|]. apply M; auto. lia.
      * exists p. split; [lia|]. split; auto. intros k Hk Pk. destruct (Nat.eq_dec k n) as [->|]; auto. apply M; auto. lia.
  - destruct IH as [IH|(p & Hp & Pp & M)].
    + left. intros k Hk. destruct (Nat.eq_dec k n) as [->|]; auto. apply IH. lia.
    + right. exists p. split; [lia|]. split; auto. intros k Hk Pk. destruct (Nat.eq_dec k n) as [->|]; [congruence|]. apply M; auto. lia.
Qed.
Definition qpos (x : Q) : bool := negb (Qle_bool x 0).
Lemma qpos_iff x : qpos x = true <-> 0 < x.
Proof. unfold qpos. rewrite negb_true_iff. split; intros H. - apply Qnot_le_lt. intros G. apply Qle_bool_iff in G. congruence. - destruct (Qle_bool x 0) eqn:E; auto. apply Qle_bool_iff in E. lra. Qed.
Definition qneg (x : Q) : bool := negb (Qle_bool 0 x).
Lemma qneg_iff x : qneg x = true <-> x < 0.
Proof. unfold qneg. rewrite negb_true_iff. split; intros H. - apply Qnot_le_lt. intros G. apply Qle_bool_iff in G. congruence. - destruct (Qle_bool 0 x) eqn:E; auto. apply Qle_bool_iff in E. lra. Qed.
Definition qsgn (x : Q) : Z := if qpos x then 1%Z else if qneg x then (-1)%Z else 0%Z.
Section Interval.
Context (n : nat) (lam mu : nat -> Q).
Context (G0 : forall k, (k < n)%nat -> ~ lam k == 0).
Context (G1 : forall i k, (i < n)%nat -> (k < n)%nat -> i <> k -> ~ mu i == 0 -> ~ lam k - mu k * (lam i / mu i) == 0).
Context (p0 : nat) (Hp0 : (p0 < n)%nat) (Pp0 : 0 < mu p0).
Let t := fun i => lam i / mu i.
Definition feas (s : Q) : bool := forallb (fun k => Qle_bool 0 (lam k - mu k * s)) (seq 0 n).
Lemma feas_iff s : feas s = true <-> forall k, (k < n)%nat -> 0 <= lam k - mu k * s.
Proof. clear - n lam mu. unfold feas. rewrite forallb_forall. split; intros H k Hk; [apply Qle_bool_iff, H, in_seq; lia|]. apply in_seq in Hk. apply Qle_bool_iff, H. lia. Qed.
Definition inb (i : nat) : bool := negb (Qeq_bool (mu i) 0) && Qle_bool 0 (lam i / mu i) && feas (lam i / mu i).
Lemma inb_iff i : inb i = true <-> ~ mu i == 0 /\ 0 <= t i /\ forall k, (k < n)%nat -> 0 <= lam k - mu k * t i.
Proof.
  unfold inb. rewrite !andb_true_iff, negb_true_iff, feas_iff. unfold t. split.
  - intros [[A B] C]. split; [intros E; apply Qeq_bool_iff in E; congruence|]. split; auto. now apply Qle_bool_iff.
  - intros (A & B & C). split; auto. split; [|now apply Qle_bool_iff]. destruct (Qeq_bool (mu i) 0) eqn:E; auto. apply Qeq_bool_iff in E. contradiction.
Qed.
Lemma t_eq i : ~ mu i == 0 -> lam i == mu i * t i.
Proof. intros H. unfold t. field. exact H. Qed.
Definition allnn : bool := forallb (fun k => Qle_bool 0 (lam k)) (seq 0 n).
Lemma allnn_iff : allnn = true <-> forall k, (k < n)%nat -> 0 <= lam k.
Proof. clear - n lam. unfold allnn. rewrite forallb_forall. split; intros H k Hk; [apply Qle_bool_iff, H, in_seq; lia|]. apply in_seq in Hk. apply Qle_bool_iff, H. lia. Qed.
Lemma t_distinct i k : (i < n)%nat -> (k < n)%nat -> i <> k -> ~ mu i == 0 -> ~ mu k == 0 -> ~ t i == t k.
Proof. intros Hi Hk N Mi Mk E. apply (G1 i k Hi Hk N Mi). fold (t i). rewrite E, (t_eq k Mk). ring. Qed.
Lemma zsum_upto2 (f : nat -> Z) p : (p < n)%nat -> forall q, (q < n)%nat -> p <> q -> (forall i, (i < n)%nat -> i <> p -> i <> q -> f i = 0%Z) -> zsum n f = (f p + f q)%Z.
Proof.
  intros Hp q Hq N H. transitivity (zsum n (fun i => (if (i =? p)%nat then f p else 0) + (if (i =? q)%nat then f q else 0))%Z).
  - apply zsum_ext. intros i Hi. destruct (Nat.eqb_spec i p) as [A|A]; destruct (Nat.eqb_spec i q) as [B|B]; try subst i; try lia. rewrite H by auto. lia.
  - rewrite zsum_add. rewrite (zsum_single n _ p Hp) by (intros i Hi E; now rewrite (proj2 (Nat.eqb_neq i p) E)). rewrite (zsum_single n _ q Hq) by (intros i Hi E; now rewrite (proj2 (Nat.eqb_neq i q) E)). now rewrite !Nat.eqb_refl.
Qed.
Lemma signed_sum : zsum n (fun i => if inb i then qsgn (mu i) else 0%Z) = if allnn then 1%Z else 0%Z.
Proof.
  destruct (argmin n (fun k => qpos (mu k)) t) as [A|(p & Hp & Pp & M)]; [exfalso; specialize (A p0 Hp0); rewrite (proj2 (qpos_iff _) Pp0) in A; discriminate|].
  apply qpos_iff in Pp. assert (Np : ~ mu p == 0) by lra. assert (Ep := t_eq p Np).
  assert (MP : forall k, (k < n)%nat -> 0 < mu k -> t p <= t k) by (intros k Hk Pk; apply M; auto; now apply qpos_iff).
  (* other positive indices are outside *)
  assert (OP : forall i, (i < n)%nat -> i <> p -> 0 < mu i -> inb i = false).
  { intros i Hi N Pi. destruct (inb i) eqn:E; auto. apply inb_iff in E as (_ & _ & C). specialize (C p Hp). assert (Ni : ~ mu i == 0) by lra. pose proof (t_distinct i p Hi Hp N Ni Np) as D. pose proof (MP i Hi Pi) as L. assert (LT : t p < t i) by (apply Qle_lteq in L as [L|L]; [exact L|exfalso; apply D; now symmetry]). rewrite Ep in C. exfalso. nra. }
  destruct (argmin n (fun k => qneg (mu k)) (fun k => - t k)) as [A|(q & Hq & Pq & Mq)].
  - (* no negative mu *)
    assert (NN : forall k, (k < n)%nat -> 0 <= mu k) by (intros k Hk; specialize (A k Hk); destruct (Qlt_le_dec (mu k) 0) as [L|L]; auto; apply qneg_iff in L; congruence).
    rewrite (zsum_single n _ p Hp).
    + unfold qsgn. rewrite (proj2 (qpos_iff _) Pp). assert (E : inb p = allnn); [|now rewrite E]. apply Bool.eq_iff_eq_true. rewrite inb_iff, allnn_iff. split.
      * intros (_ & T0 & C) k Hk. specialize (C k Hk). specialize (NN k Hk). nra.
      * intros C. split; auto. assert (T0 : 0 <= t p) by (unfold t; apply Qle_shift_div_l; auto; specialize (C p Hp); lra). split; auto. intros k Hk. specialize (C k Hk). specialize (NN k Hk). apply Qle_lteq in NN as [NK|NK].
        -- assert (Nk : ~ mu k == 0) by lra. rewrite (t_eq k Nk). pose proof (MP k Hk NK). nra.
        -- rewrite <- NK. lra.
    + intros i Hi N. destruct (Qlt_le_dec 0 (mu i)) as [L|L]; [now rewrite OP|]. specialize (NN i Hi). assert (Z0 : mu i == 0) by lra. destruct (inb i) eqn:E; auto. apply inb_iff in E as (C & _). contradiction.
  - apply qneg_iff in Pq. assert (Nq : ~ mu q == 0) by lra. assert (Eq := t_eq q Nq).
    assert (MQ : forall k, (k < n)%nat -> mu k < 0 -> t k <= t q) by (intros k Hk Pk; specialize (Mq k Hk ltac:(now apply qneg_iff)); lra).
    assert (ON : forall i, (i < n)%nat -> i <> q -> mu i < 0 -> inb i = false).
    { intros i Hi N Pi. destruct (inb i) eqn:E; auto. apply inb_iff in E as (_ & _ & C). specialize (C q Hq). assert (Ni : ~ mu i == 0) by lra. pose proof (t_distinct i q Hi Hq N Ni Nq) as D. pose proof (MQ i Hi Pi) as L. assert (LT : t i < t q) by (apply Qle_lteq in L as [L|L]; [exact L|exfalso; now apply D]). rewrite Eq in C. exfalso. nra. }
    assert (PQ : p <> q) by (intros ->; lra).
    rewrite (zsum_upto2 _ p Hp q Hq PQ).
    + unfold qsgn at 1 2. rewrite (proj2 (qpos_iff _) Pp). assert (QP : qpos (mu q) = false) by (destruct (qpos (mu q)) eqn:E; auto; apply qpos_iff in E; lra). rewrite QP, (proj2 (qneg_iff _) Pq).
      destruct allnn eqn:AN.
      * pose proof (proj1 allnn_iff AN) as C. assert (T0 : 0 <= t p) by (unfold t; apply Qle_shift_div_l; auto; specialize (C p Hp); lra).
        assert (IP : inb p = true). { apply inb_iff. split; auto. split; auto. intros k Hk. specialize (C k Hk). destruct (Qlt_le_dec 0 (mu k)) as [L|L]; [assert (Nk : ~ mu k == 0) by lra; rewrite (t_eq k Nk); pose proof (MP k Hk L); nra|nra]. }
        assert (IQ : inb q = false). { destruct (inb q) eqn:E; auto. apply inb_iff in E as (_ & TQ & _). specialize (C q Hq). pose proof (G0 q Hq) as GQ. assert (0 < lam q) by (apply Qle_lteq in C as [C|C]; [exact C|exfalso; apply GQ; now symmetry]). rewrite Eq in H. exfalso. nra. }
        now rewrite IP, IQ.
      * assert (NA : ~ forall k, (k < n)%nat -> 0 <= lam k) by (rewrite <- allnn_iff; congruence).
        assert (E : inb p = inb q); [|rewrite E; destruct (inb q); reflexivity].
        apply Bool.eq_iff_eq_true. rewrite !inb_iff. split.
        -- intros (_ & T0 & C). split; auto.
           assert (TP : t q <= t p) by (specialize (C q Hq); rewrite Eq in C; nra).
           assert (EJ : exists j, (j < n)%nat /\ lam j < 0).
           { destruct (argmin n (fun k => qneg (lam k)) lam) as [B|(j & Hj & Pj & _)]; [exfalso; apply NA; intros k Hk; specialize (B k Hk); destruct (Qlt_le_dec (lam k) 0) as [L|L]; auto; apply qneg_iff in L; congruence|]. exists j. split; auto. now apply qneg_iff. }
           destruct EJ as (j & Hj & Lj). pose proof (C j Hj) as Cj.
           assert (MJ : mu j < 0) by (apply Qnot_le_lt; intros MJ; nra). assert (Nj : ~ mu j == 0) by lra.
           assert (TJ : 0 < t j) by (pose proof (t_eq j Nj) as EE; rewrite EE in Lj; nra). pose proof (MQ j Hj MJ) as TQ. split; [lra|].
           intros k Hk. specialize (C k Hk). destruct (Qlt_le_dec (mu k) 0) as [L|L]; [assert (Nk : ~ mu k == 0) by lra; rewrite (t_eq k Nk); pose proof (MQ k Hk L); nra|nra].
        -- intros (_ & T0 & C). split; auto.
           assert (TP : t q <= t p) by (specialize (C p Hp); rewrite Ep in C; nra). split; [lra|].
           intros k Hk. specialize (C k Hk). destruct (Qlt_le_dec 0 (mu k)) as [L|L]; [assert (Nk : ~ mu k == 0) by lra; rewrite (t_eq k Nk); pose proof (MP k Hk L); nra|nra].
    + intros i Hi N1 N2. destruct (Qlt_le_dec 0 (mu i)) as [L|L]; [now rewrite OP|]. destruct (Qlt_le_dec (mu i) 0) as [L2|L2]; [now rewrite ON|]. assert (Z0 : mu i == 0) by lra. destruct (inb i) eqn:E; auto. apply inb_iff in E as (C & _). contradiction.
Qed.
End Interval.
