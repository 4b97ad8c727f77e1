(** C89, from the inequalities and the vertices to the optimum: latte-maximize and latte-minimize
    with unimodular decomposition.  Specification: CountSpec.v, DigSpec.v. *)
From Coq Require Import QArith Permutation.
From Verif Require Import Common SmithSpec ZMat Hermite Det DetProofs RatVec RatVecSpec RatVecProofs Piped PipedSpec PipedProofs PipedProofs3 PipedProofs4 ConeSpec Irrational Exponential ExpSpec CountSpec Barvinok BarvinokSpec BarvinokProofs4 BrionLinear BrionProofs BrionProofs2 BrionProofs3 EulerProofs BrionProofs4 BrionProofs5 Count CountProofs CountProofs2 CountProofs3 CountProofs4 CountProofs5 CountProofs6 CountProofs7 P_Count DigHeap Dig DigSpec P_Dig DigMain DigMainProofs.
From Verif Require CountFileProofs2 DetProofs.
Open Scope Z_scope.

Lemma value_zdot a : forall x, length a = length x -> value_at a x = zdot a x.
Proof.
  induction a as [|b a IH]; intros [|y x] L; try discriminate L; [reflexivity|]. unfold value_at, zdot in *. cbn [List.combine map fold_right fst snd length]. rewrite IH by (cbn in L; lia). rewrite DetProofs.zsum_head. reflexivity.
Qed.
Lemma value_sumq n a : forall x, length a = n -> length x = n -> (sumq n (fun k => zpoint x k * inject_Z (nth k a 0%Z)) == inject_Z (value_at a x))%Q.
Proof.
  revert n. induction a as [|b a IH]; intros n [|y x] La Lx; try (cbn in La, Lx; congruence); [cbn in La; subst n; reflexivity|]. destruct n as [|n]; [discriminate La|]. rewrite CountFileProofs2.sumq_first.
  change (value_at (b :: a) (y :: x)) with (b * y + value_at a x)%Z. rewrite inject_Z_plus, inject_Z_mult. rewrite <- (IH n x) by (cbn in *; lia). unfold zpoint. cbn [nth]. ring.
Qed.
Lemma slack_value n row x : length row = S n -> length x = n -> (slack n row (zpoint x) == inject_Z (value_at row (1%Z :: x)))%Q.
Proof.
  intros L Lx. destruct row as [|b a]; [discriminate L|]. unfold slack. cbn [nth]. rewrite (value_sumq n a x) by (cbn in L; lia). change (value_at (b :: a) (1%Z :: x)) with (b * 1 + value_at a x)%Z. rewrite Z.mul_1_r, inject_Z_plus. reflexivity.
Qed.
Lemma points_described n rows points : (forall c, In c rows -> length c = S n) -> integer_points n rows points -> describes n rows points.
Proof.
  intros LR (ND & H). split; [exact LR|]. split; [exact ND|]. intros x. rewrite H. assert (E : length x = n -> (in_polyhedron n rows (zpoint x) <-> satisfies rows x)); [|tauto]. intros Lx. unfold in_polyhedron, satisfies.
  split; intros G c Hc; specialize (G c Hc); pose proof (slack_value n c x (LR c Hc) Lx) as E.
  - rewrite E in G. change 0%Q with (inject_Z 0) in G. rewrite <- Zle_Qle in G. exact G.
  - rewrite E. change 0%Q with (inject_Z 0). rewrite <- Zle_Qle. exact G.
Qed.

(** Unimodular dual decomposition (index at most 1) with short vectors that lower the index.  There
    are finitely many non-zero vectors, which depend only on the polytope, such that, with enough fuel for the decomposition:
    what is returned is a maximum of the cost used, with the number of points where it is attained; and
    if there is an integer point and none of the vectors is orthogonal to the cost, then an optimum for
    the given cost is returned. *)
Theorem latte_maximize_exact : forall P n rows vs points, library_contracts P -> polytope_input P n rows vs -> q_mode P = DualDecomposition -> q_sv P = LatteLLL -> decreasing n (q_omega P) -> q_max_det P = 1 -> integer_points n rows points ->
  exists N, (forall r, In r N -> length r = n /\ exists k, (k < n)%nat /\ nth k r 0 <> 0) /\ (exists cost, length cost = n /\ forall r, In r N -> value_at cost r <> 0) /\
  exists F1, forall f1, (F1 <= f1)%nat -> exists F2, forall f2, (F2 <= f2)%nat -> forall rnd cost,
  (forall fuel x k used, latte_maximize (with_fuel P f1 f2) fuel rnd n rows vs cost = Ok (x, k, used) -> a_maximum used points x k /\ ((forall r, In r N -> value_at cost r <> 0) -> used = cost)) /\
  (points <> [] -> (forall r, In r N -> value_at cost r <> 0) -> exists F x k, a_maximum cost points x k /\ forall fuel, (F <= fuel)%nat -> latte_maximize (with_fuel P f1 f2) fuel rnd n rows vs cost = Ok (x, k, cost)).
Proof.
  intros P n rows vs points (KC & OC & XG & PC & HM) (Hn & LR & UV & AV & TR) DM SV DE MD IP.
  set (cones := map (fun v => (v, outer_normals n rows (coord v), [])) vs : list vcone).
  assert (UV' : forall v, In v vs -> usable n v) by exact UV.
  assert (DC : dual_cones n rows vs = Ok cones). { apply mapM_all. intros v Hv. rewrite (proj1 (tight_ok n rows v (UV' v Hv) LR)). reflexivity. }
  destruct (cones_collected P n rows cones (map coord vs) points) as (N & NN & F1 & H); auto.
  - intros c Hc. apply in_map_iff in Hc as (v & <- & Hv). cbn [fst snd]. auto.
  - intros x Hx. unfold cones. rewrite !map_map. apply lsum_ext. intros v Hv. cbn [fst snd]. rewrite <- fpol_tind; [|apply AV; now apply in_map|exact LR]. unfold hfun. now rewrite DM.
  - exists N. split; [exact NN|]. split.
    { destruct (generic_exists n N NN) as (g & Lg & G). exists g. split; [exact Lg|]. intros r Hr. rewrite value_zdot by (rewrite Lg; symmetry; apply NN, Hr). apply G, Hr. }
    exists F1. intros f1 Hf1. destruct (H f1 Hf1) as (F2 & H2). exists F2. intros f2 Hf2 rnd cost. destruct (H2 f2 Hf2) as (ds & E & D & RN & _). change (with_fuel P f1 f2) with (fueled P f1 f2).
    assert (EU : unimodular_cones (fueled P f1 f2) n rows vs = Ok ds) by (unfold unimodular_cones; rewrite DC; cbn [bind]; rewrite E; reflexivity).
    assert (OR : (forall r, In r N -> value_at cost r <> 0) -> orthogonal_to_no_ray cost ds) by (intros G c r Hc Hr; apply G, (RN c r Hc Hr)).
    pose proof (points_described n rows points LR IP) as DP. unfold latte_maximize. rewrite EU. cbn [bind]. split.
    + intros fuel x k used R. destruct (digging_finds_a_maximum n ds points rows cost rnd fuel x k used D DP R) as (A & _ & G). auto.
    + intros NE G. exact (maximize_total n ds points rows cost rnd D DP NE (OR G)).
Qed.
Print Assumptions latte_maximize_exact.
(** latte-minimize, the same with the smallest cost. *)
Theorem latte_minimize_exact : forall P n rows vs points, library_contracts P -> polytope_input P n rows vs -> q_mode P = DualDecomposition -> q_sv P = LatteLLL -> decreasing n (q_omega P) -> q_max_det P = 1 -> integer_points n rows points ->
  exists N, (forall r, In r N -> length r = n /\ exists k, (k < n)%nat /\ nth k r 0 <> 0) /\ (exists cost, length cost = n /\ forall r, In r N -> value_at cost r <> 0) /\
  exists F1, forall f1, (F1 <= f1)%nat -> exists F2, forall f2, (F2 <= f2)%nat -> forall rnd cost, (forall r, In r N -> value_at cost r <> 0) ->
  (forall fuel x k used, latte_minimize (with_fuel P f1 f2) fuel rnd n rows vs cost = Ok (x, k, used) -> In x points /\ forall y, In y points -> value_at cost x <= value_at cost y) /\
  (points <> [] -> exists F x k, (forall y, In y points -> value_at cost x <= value_at cost y) /\ (exists best, NoDup best /\ (forall y, In y best <-> In y points /\ value_at cost y = value_at cost x) /\ k = Z.of_nat (length best)) /\
    forall fuel, (F <= fuel)%nat -> latte_minimize (with_fuel P f1 f2) fuel rnd n rows vs cost = Ok (x, k, map Z.opp cost)).
Proof.
  intros P n rows vs points LC PI DM SV DE MD IP. destruct (latte_maximize_exact P n rows vs points LC PI DM SV DE MD IP) as (N & NN & GE & F1 & H). exists N. split; [exact NN|]. split; [exact GE|]. exists F1. intros f1 Hf1. destruct (H f1 Hf1) as (F2 & H2). exists F2. intros f2 Hf2 rnd cost G. destruct (H2 f2 Hf2 rnd (map Z.opp cost)) as (S0 & T0).
  assert (G' : forall r, In r N -> value_at (map Z.opp cost) r <> 0) by (intros r Hr; rewrite value_opp; specialize (G r Hr); lia). split.
  - intros fuel x k used E. destruct (S0 fuel x k used E) as ((I0 & Mx & _) & U). rewrite (U G') in Mx. split; [exact I0|]. intros y Hy. specialize (Mx y Hy). rewrite !value_opp in Mx. lia.
  - intros NE. destruct (T0 NE G') as (F & x & k & (I0 & Mx & best & ND & HB & EK) & E). exists F, x, k. split; [intros y Hy; specialize (Mx y Hy); rewrite !value_opp in Mx; lia|]. split; [|exact E]. exists best. split; [exact ND|]. split; [|exact EK]. intros y. rewrite HB, !value_opp. intuition lia.
Qed.
Print Assumptions latte_minimize_exact.
(** The hypotheses are met by the triangle x, y >= 0, 2x + 3y <= 7, which has two vertices that are not integer
    points, and the program runs on it. *)
Example latte_maximize_input : library_contracts (sample_params DualDecomposition) /\ decreasing 2 (q_omega (sample_params DualDecomposition)) /\ polytope_input (sample_params DualDecomposition) 2 (triangle_rows 7) triangle_vertices /\ integer_points 2 (triangle_rows 7) triangle_solutions /\
  q_mode (sample_params DualDecomposition) = DualDecomposition /\ q_sv (sample_params DualDecomposition) = LatteLLL /\ q_max_det (sample_params DualDecomposition) = 1.
Proof.
  destruct (count_contracts_can_be_met DualDecomposition) as (A & B). destruct (triangle_input DualDecomposition) as (C & D). split; [exact A|]. split; [apply B; lia|]. split; [exact C|]. split; [exact D|]. split; [reflexivity|]. split; reflexivity.
Qed.
Example latte_maximize_runs : latte_maximize (sample_params DualDecomposition) 20 (fun _ => []) 2 (triangle_rows 7) triangle_vertices [3;5] = Ok ([2;1], 1, [3;5]) /\
  latte_minimize (sample_params DualDecomposition) 20 (fun _ => []) 2 (triangle_rows 7) triangle_vertices [5;-3] = Ok ([0;2], 1, [-5;3]).
Proof. vm_compute. auto. Qed.
