(** Proofs about GenFun: points of evaluation, equations. *)
From Coq Require Import QArith Qpower Qfield Lqa String Permutation.
From Verif Require Import Common SmithSpec ZMat Hermite HermiteProofs HermiteSpec Det DetProofs RatVec RatVecSpec Piped PipedSpec PipedProofs3 PipedProofs4 ConeSpec Irrational Exponential ExpSpec ExpProofs3 CountSpec Barvinok Preproc PreprocSpec BrionProofs2 Count CountProofs CountProofs5 CountProofs7 Text GenFun GenFunSpec GenFunProofs2 GenFunProofs3 GenFunProofs4 GenFunProofs5 GenFunProofs6.
Open Scope Z_scope.

(** ** Points at which the values are defined *)
Lemma two_power k : (2 ^ k == 1)%Q -> k = 0.
Proof.
  intros H. destruct k as [|p|p]; [reflexivity| |].
  - exfalso. assert (L : (1 < 2 ^ Zpos p)%Q) by (apply Qpower_1_lt; [reflexivity|lia]). rewrite H in L. discriminate.
  - exfalso. change (Z.neg p) with (- Z.pos p) in H. rewrite Qpower_opp in H. assert (L : (1 < 2 ^ Zpos p)%Q) by (apply Qpower_1_lt; [reflexivity|lia]).
    assert (E : (2 ^ Zpos p == 1)%Q). { setoid_replace 1%Q with (2 ^ Zpos p * / 2 ^ Zpos p)%Q by (field; lra). rewrite H. ring. } rewrite E in L. discriminate.
Qed.
Lemma monomial_two r : forall g, length g = length r -> (monomial (fun k => 2 ^ nth k g 0%Z)%Q r == 2 ^ zdot g r)%Q.
Proof.
  induction r as [|e r IH]; intros [|a g] L; cbn [length] in L; try lia; [reflexivity|]. cbn [monomial nth]. rewrite zdot_cons, Qpower_plus by discriminate.
  rewrite (IH g) by lia. rewrite <- Qpower_mult. reflexivity.
Qed.
Theorem generic_point n N : nonzero_vectors n N -> exists x, (forall k, (k < n)%nat -> ~ (x k == 0)%Q) /\ forall r, In r N -> ~ (monomial x r == 1)%Q.
Proof.
  intros H. destruct (generic_exists n N H) as (g & Lg & G). exists (fun k => 2 ^ nth k g 0%Z)%Q. split.
  - intros k _. apply Qpower_not_0. discriminate.
  - intros r Hr E. rewrite monomial_two in E by (rewrite Lg; symmetry; apply H, Hr). apply two_power in E. exact (G r Hr E).
Qed.
Lemma ones_monomial v : forall n x, (forall k, (k < n)%nat -> (x k == 1)%Q) -> length v = n -> (monomial x v == 1)%Q.
Proof.
  induction v as [|e v IH]; intros n x H L; [reflexivity|]. cbn [length] in L. destruct n as [|n]; [lia|]. cbn [monomial]. rewrite (IH n) by (try lia; intros k Hk; apply H; lia). rewrite (H 0%nat) by lia. rewrite Qpower_1. ring.
Qed.
Lemma point_sum_ones n ps : Forall (fun p => length p = n) ps -> (point_sum (fun _ => 1%Q) ps == inject_Z (Z.of_nat (length ps)))%Q.
Proof.
  induction 1 as [|p ps Hp H IH]; [reflexivity|]. change (point_sum (fun _ => 1%Q) (p :: ps)) with (monomial (fun _ => 1%Q) p + point_sum (fun _ => 1%Q) ps)%Q.
  rewrite IH, (ones_monomial p n) by (auto; reflexivity). cbn [length]. rewrite Nat2Z.inj_succ, <- Z.add_1_l, inject_Z_plus. reflexivity.
Qed.
Lemma point_sum_perm x ps qs : Permutation ps qs -> (point_sum x ps == point_sum x qs)%Q.
Proof.
  assert (C : forall p l, point_sum x (p :: l) = (monomial x p + point_sum x l)%Q) by reflexivity.
  induction 1 as [|p l l' H IH|p q l|l l' l'' H1 IH1 H2 IH2]; [reflexivity|rewrite !C, IH; reflexivity|rewrite !C; ring|rewrite IH1; exact IH2].
Qed.
Lemma no_points n points : Forall (fun p => length p = n) points -> (forall x, in_domain n [] x -> (0 == point_sum x points)%Q) -> points = [].
Proof.
  intros F H. assert (E : (0 == inject_Z (Z.of_nat (length points)))%Q).
  { rewrite <- (point_sum_ones n points F). apply H. split; [intros k _; discriminate|intros c r []]. }
  destruct points as [|p l]; [reflexivity|]. exfalso. unfold Qeq in E. cbn in E. lia.
Qed.
Lemma stands_points n t cs points : Forall (fun p => length p = n) points -> stands n t cs -> (forall x, in_domain n cs x -> (rational_value x cs == point_sum x points)%Q) -> stands_for_points n t (all_rays cs) points.
Proof.
  intros F ST H. destruct ST as [[-> ->]|(e & R & V)].
  - left. split; [reflexivity|]. apply (no_points n points F). intros x Hx. rewrite <- (H x Hx). reflexivity.
  - right. exists e. split; [exact R|]. intros x D1 D2. assert (D : in_domain n cs x). { split; [exact D1|]. intros c r Hc Hr. apply D2. unfold all_rays. apply in_flat_map. eauto. }
    destruct (V x D) as (q & Eq & Vq). exists q. split; [exact Eq|]. rewrite Vq. exact (H x D).
Qed.
Lemma sound_rays n cs : Forall (sound_cone n) cs -> nonzero_vectors n (all_rays cs).
Proof.
  intros H r Hr. unfold all_rays in Hr. apply in_flat_map in Hr as (c & Hc & Hr). rewrite Forall_forall in H. destruct (H c Hc) as (PR & _ & NZ & _). split; [|exact (NZ r Hr)]. destruct c as [[k rays] pts]. destruct PR as (_ & _ & PR & _). rewrite Forall_forall in PR. exact (PR r Hr).
Qed.

(** ** Equations *)
Lemma nth_cut (l : list Z) : forall m k, (k < m)%nat -> nth k (firstn m l) 0 = nth k l 0.
Proof. induction l as [|a l IH]; intros m k H; [rewrite firstn_nil; reflexivity|]. destruct m as [|m]; [lia|]. destruct k as [|k]; [reflexivity|]. cbn [firstn nth]. apply IH. lia. Qed.
Section Lift.
Context (n : nat) (eqs ineqs : list (list Z)) (part : list Z) (basis rows : list (list Z)).
Context (CO : corresponds n 1 eqs ineqs part basis rows).
Let m := length basis.
Let AA := map (fun i => map (fun g => nth i g 0) basis) (seq 0 n).
Let b := map (fun i => nth i part 0) (seq 0 n).
Definition coords (x : list Z) : nat -> Z := fun k => nth k x 0.
Lemma lift_lengths : length AA = n /\ length b = n /\ Forall (fun c => length c = m) AA.
Proof.
  unfold AA, b. rewrite !map_length, seq_length. split; [reflexivity|]. split; [reflexivity|]. apply Forall_map, Forall_forall. intros i _. now rewrite map_length.
Qed.
Lemma lift_row i y : (i < n)%nat -> zdot (nth i AA []) y = HermiteSpec.combination basis (coords y) i.
Proof.
  intros Hi. unfold AA. rewrite (nth_indep _ [] (map (fun g => nth 0 g 0) basis)) by (now rewrite map_length, seq_length).
  rewrite (map_nth (fun i => map (fun g => nth i g 0) basis) (seq 0 n) 0%nat i). rewrite seq_nth by exact Hi. cbn [Nat.add]. unfold zdot, HermiteSpec.combination. rewrite map_length. apply ZMat.zsum_ext. intros k Hk.
  rewrite (nth_indep _ 0 (nth i [] 0)) by (now rewrite map_length). rewrite (map_nth (fun g => nth i g 0) basis [] k). unfold ent, coords. ring.
Qed.
Lemma lift_point y : project_point n AA b y = map (affine_point 1 part basis (coords y)) (seq 0 n).
Proof.
  unfold project_point. apply map_ext_in. intros i Hi. apply in_seq in Hi. rewrite lift_row by lia. unfold affine_point, b. rewrite nth_map_seq by lia. ring.
Qed.
Lemma combination_ext y y' i : (forall k, (k < m)%nat -> y k = y' k) -> HermiteSpec.combination basis y i = HermiteSpec.combination basis y' i.
Proof. intros H. unfold HermiteSpec.combination. apply ZMat.zsum_ext. intros k Hk. now rewrite H. Qed.
Lemma row_value_ext k t c x x' : (forall i, (i < k)%nat -> x i = x' i) -> row_value k t c x = row_value k t c x'.
Proof. intros H. unfold row_value. f_equal. apply ZMat.zsum_ext. intros i Hi. now rewrite H. Qed.
Lemma cut_polyhedron y : length y = m -> (in_polyhedron m (map (firstn (S m)) rows) (zpoint y) <-> sat_ineqs m 1 rows (coords y)).
Proof.
  intros Ly. assert (E : forall c, (slack m (firstn (S m) c) (zpoint y) == inject_Z (row_value m 1 c (coords y)))%Q).
  { intros c. unfold slack, row_value. rewrite inject_Z_plus, Z.mul_1_l. assert (N : forall k, (k < S m)%nat -> nth k (firstn (S m) c) 0 = nth k c 0) by (intros k Hk; apply nth_cut; lia). rewrite (N 0%nat) by lia. apply Qplus_comp; [reflexivity|]. rewrite <- sumq_inj. apply sumq_ext. intros k Hk. rewrite (N (S k)) by lia. replace (k + 1)%nat with (S k) by lia. unfold zpoint, coords. rewrite inject_Z_mult. ring. }
  unfold in_polyhedron, sat_ineqs. split.
  - intros H c Hc. specialize (H (firstn (S m) c) (in_map _ _ _ Hc)). rewrite E in H. unfold Qle in H. cbn in H. lia.
  - intros H c Hc. apply in_map_iff in Hc as (c' & <- & Hc). rewrite E. specialize (H c' Hc). unfold Qle. cbn. lia.
Qed.
Context (points : list (list Z)) (ND : NoDup points).
Context (PT : forall x, In x points <-> length x = n /\ sat_eqs n 1 eqs (coords x) /\ sat_ineqs n 1 ineqs (coords x)).
Lemma sat_eqs_ext x x' : (forall i, (i < n)%nat -> x i = x' i) -> sat_eqs n 1 eqs x -> sat_eqs n 1 eqs x'.
Proof. intros E H e He. rewrite <- (row_value_ext n 1 e x x' E). exact (H e He). Qed.
Lemma sat_ineqs_ext k rs x x' : (forall i, (i < k)%nat -> x i = x' i) -> sat_ineqs k 1 rs x -> sat_ineqs k 1 rs x'.
Proof. intros E H e He. rewrite <- (row_value_ext k 1 e x x' E). exact (H e He). Qed.
Lemma coords_seq k (f : nat -> Z) i : (i < k)%nat -> coords (map f (seq 0 k)) i = f i.
Proof. intros H. unfold coords. now rewrite nth_map_seq. Qed.
Lemma point_lifts y : length y = m -> (In (project_point n AA b y) points <-> sat_ineqs m 1 rows (coords y)).
Proof.
  intros Ly. destruct CO as (C1 & C2 & C3 & C4). fold m in C3, C4. rewrite PT, lift_point.
  assert (E : forall i, (i < n)%nat -> affine_point 1 part basis (coords y) i = coords (map (affine_point 1 part basis (coords y)) (seq 0 n)) i) by (intros i Hi; now rewrite coords_seq). split.
  - intros (_ & _ & H). apply C4. revert H. apply sat_ineqs_ext. intros i Hi. symmetry. now apply E.
  - intros H. split; [now rewrite map_length, seq_length|]. split; [apply (sat_eqs_ext _ _ E), C1|]. apply C4 in H. exact (sat_ineqs_ext n ineqs _ _ E H).
Qed.
Lemma preimages : exists ys, map (project_point n AA b) ys = points /\ Forall (fun y => length y = m) ys.
Proof.
  assert (H : forall x, In x points -> exists y, length y = m /\ project_point n AA b y = x).
  { intros x Hx. apply PT in Hx as (Lx & SE & SI). destruct CO as (C1 & C2 & C3 & C4). destruct (C2 (coords x) SE) as (y & Hy). exists (map y (seq 0 m)). split; [now rewrite map_length, seq_length|]. rewrite lift_point.
    apply nth_ext with (d := 0) (d' := 0); [rewrite map_length, seq_length; congruence|]. intros i Hi. rewrite map_length, seq_length in Hi. rewrite nth_map_seq by exact Hi. change (nth i x 0) with (coords x i). rewrite (Hy i Hi). unfold affine_point. f_equal. apply combination_ext. intros k Hk. now apply coords_seq. }
  clear PT ND. induction points as [|x l IH]; [exists []; split; [reflexivity|constructor]|]. destruct (H x (or_introl eq_refl)) as (y & Ly & Ey). destruct IH as (ys & Eys & F); [intros x' Hx'; apply H; now right|]. exists (y :: ys). split; [cbn [map]; now rewrite Ey, Eys|now constructor].
Qed.
Lemma lift_inj y y' : length y = m -> length y' = m -> project_point n AA b y = project_point n AA b y' -> y = y'.
Proof.
  intros Ly Ly' E. destruct CO as (C1 & C2 & C3 & C4). rewrite !lift_point in E. apply nth_ext with (d := 0) (d' := 0); [congruence|]. intros k Hk. apply (C3 (coords y) (coords y')); [|fold m; lia]. intros i Hi.
  rewrite <- (coords_seq n (affine_point 1 part basis (coords y)) i Hi), <- (coords_seq n (affine_point 1 part basis (coords y')) i Hi). now rewrite E.
Qed.
Lemma reduced_points : exists ys, integer_points m (map (firstn (S m)) rows) ys /\ map (project_point n AA b) ys = points.
Proof.
  destruct preimages as (ys & E & F). exists ys. split; [|exact E]. split.
  - apply (NoDup_map_inv (project_point n AA b)). now rewrite E.
  - intros y. split.
    + intros Hy. rewrite Forall_forall in F. pose proof (F y Hy) as Ly. split; [exact Ly|]. apply (cut_polyhedron y Ly), (point_lifts y Ly). rewrite <- E. now apply in_map.
    + intros [Ly Hy]. apply (cut_polyhedron y Ly), (point_lifts y Ly) in Hy. rewrite <- E in Hy. apply in_map_iff in Hy as (y' & Ey & Hy'). rewrite Forall_forall in F. rewrite (lift_inj y y' Ly (F y' Hy') (eq_sym Ey)). exact Hy'.
Qed.
Lemma lift_nonzero r : length r = m -> (exists k, (k < m)%nat /\ nth k r 0 <> 0) -> exists k, (k < n)%nat /\ nth k (project_ray n AA r) 0 <> 0.
Proof.
  intros Lr (k & Hk & Nk). destruct (existsb (fun i => negb (nth i (project_ray n AA r) 0 =? 0)) (seq 0 n)) eqn:EX.
  - apply existsb_exists in EX as (i & Hi & Ei). apply in_seq in Hi. exists i. split; [lia|]. now apply negb_true_iff, Z.eqb_neq in Ei.
  - exfalso. apply Nk. destruct CO as (_ & _ & C3 & _). apply (C3 (coords r) (fun _ => 0)); [|exact Hk]. intros i Hi. unfold affine_point. f_equal.
    assert (Z0 : nth i (project_ray n AA r) 0 = 0). { destruct (Z.eq_dec (nth i (project_ray n AA r) 0) 0) as [E|N]; [exact E|]. exfalso. assert (X : existsb (fun i => negb (nth i (project_ray n AA r) 0 =? 0)) (seq 0 n) = true); [|congruence]. apply existsb_exists. exists i. split; [apply in_seq; lia|]. now apply negb_true_iff, Z.eqb_neq. }
    unfold project_ray in Z0. rewrite nth_map_seq in Z0 by exact Hi. rewrite lift_row in Z0 by exact Hi. rewrite Z0. unfold HermiteSpec.combination. symmetry. apply ZMat.zsum_zero. intros; ring.
Qed.
End Lift.
