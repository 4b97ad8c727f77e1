(** Linear algebra for Brion's theorem: kernels of integer matrices, by elimination. *)
From Coq Require Import QArith.
From Verif Require Import Common ZMat PipedSpec PipedProofs PipedProofs3.
Open Scope Q_scope.

Definition qdot (n : nat) (a : nat -> Z) (y : nat -> Q) : Q := sumq n (fun k => y k * inject_Z (a k)).
Definition ivec (r : nat -> Z) : nat -> Q := fun k => inject_Z (r k).
Definition kills (n : nat) (T : list (nat -> Z)) (y : nat -> Q) : Prop := forall a, In a T -> qdot n a y == 0.
Definition nonzero_upto (n : nat) (r : nat -> Z) : Prop := exists k, (k < n)%nat /\ r k <> 0%Z.

Lemma pivot (n : nat) (T : list (nat -> Z)) : (exists T1 a T2, T = T1 ++ a :: T2 /\ a n <> 0%Z) \/ (forall a, In a T -> a n = 0%Z).
Proof.
  induction T as [|b T IH]; [right; intros a []|]. destruct (Z.eq_dec (b n) 0) as [E|E].
  - destruct IH as [(T1&a&T2&->&H)|H]; [left; exists (b :: T1), a, T2; auto|right]. intros a [<-|I]; auto.
  - left. exists [], b, T. auto.
Qed.
Definition eliminate (n : nat) (a b : nat -> Z) : nat -> Z := fun k => (a n * b k - b n * a k)%Z.
Lemma qdot_eliminate n a b y : qdot n (eliminate n a b) y == inject_Z (a n) * qdot n b y - inject_Z (b n) * qdot n a y.
Proof.
  unfold qdot, eliminate. rewrite <- !sumq_scal. setoid_replace (sumq n (fun i => inject_Z (a n) * (y i * inject_Z (b i))) - sumq n (fun i => inject_Z (b n) * (y i * inject_Z (a i))))
    with (sumq n (fun i => inject_Z (a n) * (y i * inject_Z (b i))) + sumq n (fun i => (-1) * (inject_Z (b n) * (y i * inject_Z (a i))))) by (rewrite (sumq_scal n (-1)); ring).
  rewrite <- sumq_add. apply sumq_ext. intros i _. unfold Z.sub. rewrite inject_Z_plus, inject_Z_opp, !inject_Z_mult. ring.
Qed.
(** The kernel vector of the eliminated system, extended. *)
Definition extend (n : nat) (a r : nat -> Z) : nat -> Z := fun k => if (k <? n)%nat then (a n * r k)%Z else (- zsum n (fun j => r j * a j))%Z.
Lemma qdot_extend n a b r : qdot (S n) b (ivec (extend n a r)) == qdot n (eliminate n a b) (ivec r).
Proof.
  rewrite qdot_eliminate. unfold qdot. cbn [sumq]. unfold ivec, extend. rewrite Nat.ltb_irrefl.
  rewrite <- (sumq_scal n (inject_Z (a n))).
  rewrite (sumq_ext n (fun k => inject_Z (if (k <? n)%nat then (a n * r k)%Z else (- zsum n (fun j => r j * a j))%Z) * inject_Z (b k)) (fun i => inject_Z (a n) * (inject_Z (r i) * inject_Z (b i)))).
  2:{ intros i Hi. rewrite (proj2 (Nat.ltb_lt i n) Hi), inject_Z_mult. ring. }
  rewrite inject_Z_opp, <- sumq_inj. rewrite (sumq_ext n (fun i => inject_Z (r i * a i)) (fun i => inject_Z (r i) * inject_Z (a i))) by (intros; now rewrite inject_Z_mult). ring.
Qed.
Lemma extend_nonzero n a r : a n <> 0%Z -> nonzero_upto n r -> nonzero_upto (S n) (extend n a r).
Proof.
  intros Ha (k&Hk&E). exists k. split; [lia|]. unfold extend. rewrite (proj2 (Nat.ltb_lt k n) Hk). intros H. apply Z.mul_eq_0 in H. tauto.
Qed.
Lemma unit_kills n T : (forall a, In a T -> a n = 0%Z) -> kills (S n) T (ivec (fun k => if Nat.eqb k n then 1 else 0)%Z).
Proof.
  intros H a Ha. unfold qdot, ivec. cbn [sumq]. rewrite (H a Ha). rewrite (sumq_ext n _ (fun _ => 0)); [rewrite sumq_0; change (inject_Z 0) with 0; ring|].
  intros i Hi. rewrite (proj2 (Nat.eqb_neq i n)) by lia. change (inject_Z 0) with 0. ring.
Qed.
Lemma inject_nz a : a <> 0%Z -> ~ inject_Z a == 0.
Proof. intros H E. apply H. unfold Qeq in E. cbn in E. lia. Qed.

Lemma kernel_dec : forall n T,
  (exists r, nonzero_upto n r /\ kills n T (ivec r)) \/ (forall y, kills n T y -> forall k, (k < n)%nat -> y k == 0).
Proof.
  induction n as [|n IH]; intros T; [right; intros y _ k Hk; lia|].
  destruct (pivot n T) as [(T1&a&T2&->&Ha)|Z0].
  2:{ left. exists (fun k => if Nat.eqb k n then 1 else 0)%Z. split; [exists n; split; [lia|rewrite Nat.eqb_refl; discriminate]|apply unit_kills, Z0]. }
  set (T := T1 ++ a :: T2). assert (Ia : In a T) by (apply in_elt). destruct (IH (map (eliminate n a) T)) as [(r&N&K)|K].
  - left. exists (extend n a r). split; [apply extend_nonzero; assumption|]. intros b Hb. rewrite qdot_extend. apply K. apply in_map. exact Hb.
  - right. intros y Ky. assert (L : forall k, (k < n)%nat -> y k == 0).
    { apply K. intros c Hc. apply in_map_iff in Hc. destruct Hc as (b&<-&Hb). rewrite qdot_eliminate. pose proof (Ky b Hb) as E1. pose proof (Ky a Ia) as E2. unfold qdot in E1, E2 |- *. cbn [sumq] in E1, E2.
      setoid_replace (sumq n (fun k => y k * inject_Z (b k))) with (- (y n * inject_Z (b n))) by (rewrite <- (Qplus_0_l (- _)), <- E1; ring).
      setoid_replace (sumq n (fun k => y k * inject_Z (a k))) with (- (y n * inject_Z (a n))) by (rewrite <- (Qplus_0_l (- _)), <- E2; ring). ring. }
    intros k Hk. destruct (Nat.eq_dec k n) as [->|Nk]; [|apply L; lia]. pose proof (Ky a Ia) as E2. unfold qdot in E2. cbn [sumq] in E2.
    rewrite (sumq_ext n _ (fun _ => 0)), sumq_0 in E2 by (intros i Hi; rewrite L by exact Hi; ring). rewrite Qplus_0_l in E2. apply Qmult_integral in E2. destruct E2 as [E2|E2]; [exact E2|]. exfalso. exact (inject_nz _ Ha E2).
Qed.
(** Fewer equations than unknowns. *)
Lemma kernel_few : forall n T, (length T < n)%nat -> exists r, nonzero_upto n r /\ kills n T (ivec r).
Proof.
  induction n as [|n IH]; intros T L; [lia|]. destruct (pivot n T) as [(T1&a&T2&->&Ha)|Z0].
  - rewrite app_length in L. cbn [length] in L. destruct (IH (map (eliminate n a) (T1 ++ T2))) as (r&N&K); [rewrite map_length, app_length; lia|].
    exists (extend n a r). split; [apply extend_nonzero; assumption|]. intros b Hb. rewrite qdot_extend.
    assert (D : b = a \/ In b (T1 ++ T2)) by (rewrite in_app_iff in *; cbn [In] in Hb; destruct Hb as [H|[H|H]]; auto).
    destruct D as [->|D]; [rewrite qdot_eliminate; ring|]. apply K, in_map, D.
  - exists (fun k => if Nat.eqb k n then 1 else 0)%Z. split; [exists n; split; [lia|rewrite Nat.eqb_refl; discriminate]|apply unit_kills, Z0].
Qed.

(** ** Relations between rows *)
Definition relation (n : nat) (T : list (nat -> Z)) (ks : nat -> Z) : Prop :=
  forall i, (i < n)%nat -> zsum (length T) (fun k => ks k * nth k T (fun _ => 0%Z) i)%Z = 0%Z.
Definition independent (n : nat) (T : list (nat -> Z)) : Prop := forall ks, relation n T ks -> forall k, (k < length T)%nat -> ks k = 0%Z.
Definition columns (n : nat) (T : list (nat -> Z)) : list (nat -> Z) := map (fun i => fun k => nth k T (fun _ => 0%Z) i) (seq 0 n).
Lemma qdot_int n a r : qdot n a (ivec r) == inject_Z (zsum n (fun k => r k * a k)%Z).
Proof. unfold qdot, ivec. rewrite <- sumq_inj. apply sumq_ext. intros i _. now rewrite inject_Z_mult. Qed.
Lemma relation_kills n T ks : relation n T ks <-> kills (length T) (columns n T) (ivec ks).
Proof.
  unfold relation, kills, columns. split.
  - intros H a Ha. apply in_map_iff in Ha. destruct Ha as (i&<-&Hi). apply in_seq in Hi. rewrite qdot_int, H by lia. reflexivity.
  - intros H i Hi. specialize (H (fun k => nth k T (fun _ => 0%Z) i)). rewrite qdot_int in H. apply inject_Z_injective. apply H. apply in_map_iff. exists i. split; [reflexivity|apply in_seq; lia].
Qed.
Lemma independent_dec n T : independent n T \/ exists ks, nonzero_upto (length T) ks /\ relation n T ks.
Proof.
  destruct (kernel_dec (length T) (columns n T)) as [(ks&N&K)|K]; [right; exists ks; split; [exact N|apply relation_kills, K]|left].
  intros ks R k Hk. apply relation_kills in R. specialize (K _ R k Hk). unfold ivec in K. apply inject_Z_injective. exact K.
Qed.
Lemma independent_le n T : independent n T -> (length T <= n)%nat.
Proof.
  intros H. destruct (Nat.le_gt_cases (length T) n) as [L|L]; [exact L|]. destruct (kernel_few (length T) (columns n T)) as (ks&(k&Hk&N)&K); [unfold columns; rewrite map_length, seq_length; exact L|].
  exfalso. apply N. apply (H ks); [apply relation_kills, K|exact Hk].
Qed.
(** n independent rows have a trivial kernel. *)
Lemma independent_trivial n T : length T = n -> independent n T -> forall y, kills n T y -> forall k, (k < n)%nat -> y k == 0.
Proof.
  intros L I. destruct (kernel_dec n T) as [(r&(j&Hj&Nj)&K)|K]; [|exact K]. exfalso.
  destruct (kernel_few (length T) (map (fun i => fun k => nth k T (fun _ => 0%Z) i) (filter (fun i => negb (Nat.eqb i j)) (seq 0 n)))) as (ks&(k&Hk&Nk)&Kk).
  { rewrite map_length, L. assert (S (length (filter (fun i => negb (Nat.eqb i j)) (seq 0 n))) <= length (seq 0 n))%nat; [|rewrite seq_length in H; lia].
    assert (In j (seq 0 n)) by (apply in_seq; lia). clear -H. induction (seq 0 n) as [|x l IH]; [destruct H|]. cbn [filter length]. destruct (Nat.eqb_spec x j) as [->|N]; cbn [negb length].
    - clear. induction l as [|x l IH]; [cbn; lia|]. cbn [filter length]. destruct (negb (Nat.eqb x j)); cbn [length]; lia.
    - destruct H as [->|H]; [contradiction|]. specialize (IH H). lia. }
  apply Nk. apply (I ks); [|exact Hk]. set (s := fun i => zsum (length T) (fun k => ks k * nth k T (fun _ => 0%Z) i)%Z).
  assert (S1 : forall i, (i < n)%nat -> i <> j -> s i = 0%Z).
  { intros i Hi Ni. apply inject_Z_injective. unfold s. rewrite <- qdot_int. apply Kk. apply in_map_iff. exists i. split; [reflexivity|]. apply filter_In. split; [apply in_seq; lia|]. rewrite (proj2 (Nat.eqb_neq i j) Ni). reflexivity. }
  assert (S2 : zsum n (fun i => r i * s i)%Z = 0%Z).
  { unfold s. rewrite (zsum_ext n _ (fun i => zsum (length T) (fun k => ks k * (r i * nth k T (fun _ => 0%Z) i))%Z)).
    - rewrite zsum_swap. apply zsum_zero. intros k' Hk'. rewrite zsum_scal. assert (E : zsum n (fun i => (r i * nth k' T (fun _ => 0%Z) i)%Z) = 0%Z); [|rewrite E; ring].
      apply inject_Z_injective. rewrite <- qdot_int. apply K. apply nth_In. exact Hk'.
    - intros i _. rewrite <- zsum_scal. apply zsum_ext. intros; ring. }
  rewrite (zsum_single n _ j Hj) in S2 by (intros i Hi Ni; rewrite S1 by assumption; ring). intros i Hi. fold (s i).
  destruct (Nat.eq_dec i j) as [->|Ni]; [|now apply S1]. apply Z.mul_eq_0 in S2. tauto.
Qed.
