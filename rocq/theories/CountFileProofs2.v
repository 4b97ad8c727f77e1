(** C85: from the matrix read to the system, and from cdd's files to the vertices. *)
From Coq Require Import QArith Qround Lqa.
From Verif Require Import Common ZMat Hermite HermiteSpec HermiteProofs RatVec RatVecSpec RatVecProofs PipedSpec PipedProofs3 ConeSpec CountSpec BrionLinear BrionProofs4 OmegaProofs4 Piped CountProofs5 CountProofs6 Preproc PreprocSpec PreprocProofs GenFun GenFunProofs7 Rational RationalSpec Text LatteText LatteTextSpec LatteTextProofs2 CheckEmpty CheckEmptySpec CheckEmptyProofs CddText CddTextSpec P_CddText P_Full CountFile CountFileSpec CountFileProofs.
Open Scope Z_scope.

Lemma sumq_first k f : (sumq (S k) f == f 0%nat + sumq k (fun i => f (S i)))%Q.
Proof. change (S k) with (1 + k)%nat. rewrite sumq_split. cbn [sumq Nat.add]. ring. Qed.
Lemma dot_sum : forall (a : list Z) (x : list Q), length a = length x -> (CheckEmptySpec.dot a x == sumq (length x) (fun k => nth k x 0%Q * inject_Z (nth k a 0%Z)))%Q.
Proof.
  induction a as [|c a IH]; intros [|q x] L; try discriminate; [reflexivity|]. cbn [length]. rewrite sumq_first. cbn [CheckEmptySpec.dot nth]. rewrite (IH x) by (cbn in L; lia). ring.
Qed.
Definition at_list (x : list Q) : nat -> Q := fun k => nth k x 0%Q.
Lemma affine_parts row h x n : Forall (fun q => den q = 1) row -> length row = S n -> length x = n ->
  (affine row (h :: x) == inject_Z (nth 0 (map num row) 0%Z) * h + dirval n (map num row) (at_list x))%Q.
Proof.
  intros D L Lx. rewrite <- dot_affine by exact D. destruct row as [|q row]; [discriminate|]. cbn [map CheckEmptySpec.dot nth]. rewrite dot_sum by (rewrite map_length; cbn in L; lia). rewrite Lx. reflexivity.
Qed.
Lemma affine_slack row x n : Forall (fun q => den q = 1) row -> length row = S n -> length x = n -> (affine row (1%Q :: x) == slack n (map num row) (at_list x))%Q.
Proof. intros D L Lx. rewrite (affine_parts row 1 x n D L Lx), slack_dir. ring. Qed.

Lemma in_combine_nth {X Y} (dx : X) (dy : Y) l r p : length l = length r -> (In p (List.combine l r) <-> exists i, (i < length r)%nat /\ p = (nth i l dx, nth i r dy)).
Proof.
  intros L. assert (LC : length (List.combine l r) = length r) by (rewrite combine_length; lia). split.
  - intros I. apply (In_nth _ _ (dx, dy)) in I as (i & Hi & <-). exists i. split; [lia|]. now apply combine_nth.
  - intros (i & Hi & ->). rewrite <- combine_nth by exact L. apply nth_In. lia.
Qed.
Definition inequality_rows (m : matrix) : list (list Z) := map (fun p => map num (snd p)) (filter (fun p => negb (fst p)) (List.combine (mx_lin m) (mx_rows m))).
Lemma filter_combine (g : bool -> bool) (f : list rat -> list Z) : forall lin rows,
  map snd (filter (fun p => g (fst p)) (List.combine lin (map f rows))) = map (fun p => f (snd p)) (filter (fun p => g (fst p)) (List.combine lin rows)).
Proof.
  induction lin as [|b lin IH]; intros [|r rows]; try reflexivity. cbn [map List.combine filter fst]. destruct (g b); cbn [map snd]; now rewrite IH.
Qed.
Lemma split_ok m : Forall (Forall (fun q => den q = 1)) (mx_rows m) -> split_rows m = Ok (equation_rows m, inequality_rows m).
Proof.
  intros D. unfold split_rows. rewrite (mapM_all _ (map num)).
  - cbn [bind]. unfold equation_rows, inequality_rows. f_equal. f_equal; [exact (filter_combine (fun b => b) (map num) _ _)|exact (filter_combine negb (map num) _ _)].
  - intros row Hr. apply mapM_all. intros q Hq. rewrite Forall_forall in D. pose proof (D row Hr) as F. rewrite Forall_forall in F. unfold entry_ZZ. now rewrite (F q Hq), Z.eqb_refl.
Qed.
Section Matrix.
Context (m : matrix) (n : nat).
Context (D : Forall (Forall (fun q => den q = 1)) (mx_rows m)) (W : Forall (fun row => length row = S n) (mx_rows m)) (LL : length (mx_lin m) = length (mx_rows m)).
Lemma in_equations e : In e (equation_rows m) <-> exists i, (i < length (mx_rows m))%nat /\ nth i (mx_lin m) false = true /\ e = map num (nth i (mx_rows m) []).
Proof.
  unfold equation_rows. rewrite in_map_iff. split.
  - intros ([b r] & <- & I). apply filter_In in I as [I B]. apply (in_combine_nth false []) in I as (i & Hi & E); [|exact LL]. injection E as -> ->. exists i. auto.
  - intros (i & Hi & B & ->). exists (nth i (mx_lin m) false, nth i (mx_rows m) []). split; [reflexivity|]. apply filter_In. split; [|exact B]. apply (in_combine_nth false []); [exact LL|]. exists i. auto.
Qed.
Lemma in_inequalities a : In a (inequality_rows m) <-> exists i, (i < length (mx_rows m))%nat /\ nth i (mx_lin m) false = false /\ a = map num (nth i (mx_rows m) []).
Proof.
  unfold inequality_rows. rewrite in_map_iff. split.
  - intros ([b r] & <- & I). apply filter_In in I as [I B]. apply (in_combine_nth false []) in I as (i & Hi & E); [|exact LL]. injection E as -> ->. exists i. split; [exact Hi|]. split; [|reflexivity]. now apply negb_true_iff.
  - intros (i & Hi & B & ->). exists (nth i (mx_lin m) false, nth i (mx_rows m) []). split; [reflexivity|]. apply filter_In. split; [|now apply negb_true_iff]. apply (in_combine_nth false []); [exact LL|]. exists i. auto.
Qed.
Lemma row_slack i x : (i < length (mx_rows m))%nat -> length x = n -> (row_at m i x == slack n (map num (nth i (mx_rows m) [])) (at_list x))%Q.
Proof.
  intros Hi Lx. rewrite Forall_forall in D, W. apply affine_slack; [|apply W; now apply nth_In|exact Lx]. apply D. now apply nth_In.
Qed.
Lemma satisfies_split x : length x = n ->
  (satisfies m x <-> (forall e, In e (equation_rows m) -> (slack n e (at_list x) == 0)%Q) /\ (forall a, In a (inequality_rows m) -> (0 <= slack n a (at_list x))%Q)).
Proof.
  intros Lx. split.
  - intros S. split; intros c Hc; [apply in_equations in Hc|apply in_inequalities in Hc]; destruct Hc as (i & Hi & B & ->); specialize (S i Hi); rewrite B in S; now rewrite (row_slack i x Hi Lx) in S.
  - intros [A B] i Hi. destruct (nth i (mx_lin m) false) eqn:Ei; rewrite (row_slack i x Hi Lx); [apply A, in_equations|apply B, in_inequalities]; eauto.
Qed.
Lemma widths c : In c (equation_rows m) \/ In c (inequality_rows m) -> length c = S n.
Proof.
  rewrite Forall_forall in W. intros [H|H]; [apply in_equations in H|apply in_inequalities in H]; destruct H as (i & Hi & _ & ->); rewrite map_length; apply W; now apply nth_In.
Qed.
End Matrix.

(** Bounded and nonempty: no direction. *)
Lemma slack_list n c (f : nat -> Q) : (slack n c (at_list (map f (seq 0 n))) == slack n c f)%Q.
Proof.
  apply slack_ext. intros k Hk. unfold at_list. rewrite (nth_indep _ 0%Q (f 0%nat)) by (now rewrite map_length, seq_length). rewrite (map_nth f (seq 0 n) 0%nat k), seq_nth by exact Hk. reflexivity.
Qed.
Lemma no_direction_of n eqs ineqs (S : list Q -> Prop) x0 :
  (forall x, length x = n -> (S x <-> (forall e, In e eqs -> (slack n e (at_list x) == 0)%Q) /\ (forall a, In a ineqs -> (0 <= slack n a (at_list x))%Q))) ->
  bounded_set S -> length x0 = n -> S x0 ->
  forall y, (forall e, In e eqs -> (dirval n e y == 0)%Q) -> (forall a, In a ineqs -> (0 <= dirval n a y)%Q) -> forall k, (k < n)%nat -> (y k == 0)%Q.
Proof.
  intros HS (B & HB) L0 H0 y HE HI k Hk.
  assert (RAY : forall t, (0 <= t)%Q -> (- B <= at_list x0 k + t * y k /\ at_list x0 k + t * y k <= B)%Q).
  { intros t Ht. set (f := fun i => (at_list x0 i + t * y i)%Q). assert (Sx : S (map f (seq 0 n))).
    { apply HS; [now rewrite map_length, seq_length|]. destruct (proj1 (HS x0 L0) H0) as [A1 A2]. split; intros c Hc; rewrite slack_list, slack_dir; unfold f; rewrite dirval_lin.
      - specialize (A1 c Hc). rewrite slack_dir in A1. rewrite (HE c Hc). lra.
      - specialize (A2 c Hc). rewrite slack_dir in A2. assert (0 <= t * dirval n c y)%Q by (apply Qmult_le_0_compat; [exact Ht|exact (HI c Hc)]). lra. }
    specialize (HB _ Sx). rewrite Forall_forall in HB. specialize (HB (f k)). apply HB. apply in_map, in_seq. lia. }
  destruct (Qeq_dec (y k) 0) as [E|E]; [exact E|exfalso]. pose proof (RAY 0%Q (Qle_refl 0)) as [R1 R2]. set (t := ((2 * B + 1) / Qabs.Qabs (y k))%Q).
  assert (PA : (0 < Qabs.Qabs (y k))%Q) by (destruct (Q_dec (y k) 0) as [[X|X]|X]; [rewrite Qabs.Qabs_neg by lra; lra|rewrite Qabs.Qabs_pos by lra; lra|contradiction]).
  assert (TP : (0 <= t)%Q) by (unfold t; apply Qle_shift_div_l; [exact PA|lra]). assert (TA : (t * Qabs.Qabs (y k) == 2 * B + 1)%Q) by (unfold t; field; lra).
  destruct (RAY t TP) as [R3 R4]. destruct (Q_dec (y k) 0) as [[X|X]|X]; [rewrite Qabs.Qabs_neg in TA by lra; lra|rewrite Qabs.Qabs_pos in TA by lra; lra|contradiction].
Qed.
