(** C72, C73: the number of integer points of a polytope and its Ehrhart polynomial, from the
    inequalities and the vertices to the result.  Specification: CountSpec.v. *)
From Coq Require Import QArith Qfield Lqa.
From Verif Require Import Common SmithSpec SmithProofs2 ZMat Hermite Det DetProofs RatVec RatVecSpec RatVecProofs Piped PipedSpec PipedProofs PipedProofs4 ConeSpec Irrational Exponential ExpSpec CountSpec Barvinok BarvinokSpec BarvinokProofs4 BrionLinear BrionProofs BrionProofs2 BrionProofs3 EulerProofs BrionProofs4 BrionProofs5 Count CountProofs CountProofs2 CountProofs3 CountProofs4 CountProofs5 CountProofs6 CountProofs7.
Open Scope Z_scope.

(** What is asked of the libraries: relations (NTL image), short vectors, XGCD; and of the
    command line: the maximal index is not negative.  In dual decomposition the short vectors
    must be primitive. *)
Definition library_contracts (P : params) : Prop :=
  relation_contract (q_ker P) /\ omega_contract (q_omega P) /\ xgcd_contract (q_xg P) /\ (q_mode P = DualDecomposition -> primitive_choice (q_omega P)) /\ 0 <= q_max_det P.
(** The polyhedron: n variables, rows (b, a), the exact list of its vertices as objects built
    through the API, and a triangulation of the cone of outer normals at each vertex. *)
Definition polytope_input (P : params) (n : nat) (rows : list (list Z)) (vs : list rvec) : Prop :=
  (0 < n)%nat /\ (forall c, In c rows -> length c = S n) /\
  (forall v, In v vs -> (exists Pr k, (Pr = nonzero \/ Pr = positive) /\ reachable Pr k v) /\ dim v = n) /\
  all_vertices n rows (map coord vs) /\
  (forall v, In v vs -> triangulates n (outer_normals n rows (coord v)) (q_tri P (outer_normals n rows (coord v)))).
(** The same parameters with other bounds on the numbers of recursive calls. *)
Definition with_fuel (P : params) (f1 f2 : nat) : params := mkParams f1 f2 (q_depth P) (q_mode P) (q_sv P) (q_max_det P) (q_omega P) (q_ker P) (q_xg P) (q_tri P).

(** C72.  Dual and irrational primal decomposition.  With enough fuel, if a number is returned
    it is the number of integer points.  Otherwise: a cone of the irrational decomposition was
    found not to be irrational; or exit, when the index of the cones is not bounded by an int;
    or an assertion of the second choice of short vectors; or every vector tried is orthogonal
    to one of finitely many non-zero vectors, which depend only on the polytope. *)
Theorem count_exact : forall P n rows vs points, library_contracts P -> polytope_input P n rows vs -> q_mode P <> IrrationalAllPrimalDecomposition -> integer_points n rows points ->
  exists N, (forall r, In r N -> length r = n /\ exists k, (k < n)%nat /\ nth k r 0 <> 0) /\
  forall guesses, (forall g, In g guesses -> length g = n) -> exists F1, forall f1, (F1 <= f1)%nat -> exists F2, forall f2, (F2 <= f2)%nat ->
  match count (with_fuel P f1 f2) n guesses rows vs with
  | Ok z => z = Z.of_nat (length points)
  | Err e => e = Thrown /\ q_mode P <> DualDecomposition \/
             e = Exited /\ (q_sv P = SubspaceAvoidingLLL \/ q_max_det P = 0 \/ int_max < q_max_det P) \/
             e = AssertFail /\ q_sv P = LatteLLL /\ ~ decreasing n (q_omega P) \/
             e = OutOfFuel /\ forall g, In g guesses -> exists r, In r N /\ zdot g r = 0
  end.
Proof.
  intros P n rows vs points (KC & OC & XG & PC & HM) (Hn & LR & UV & AV & TR) NM IP. destruct (count_exact_main P n rows vs Hn KC OC PC HM XG NM LR UV AV TR points IP) as (N & NN & H). exists N. split; [exact NN|]. intros guesses LG. destruct (H guesses LG) as (F1 & H1). exists F1. intros f1 Hf1. destruct (H1 f1 Hf1) as (F2 & H2). exists F2. intros f2 Hf2. specialize (H2 f2 Hf2). unfold outcome_ok in H2. change (with_fuel P f1 f2) with (fueled P f1 f2). destruct (count (fueled P f1 f2) n guesses rows vs) as [z|e]; [exact H2|]. destruct H2 as [[H2|[H2|H2]]|H2]; tauto.
Qed.
Print Assumptions count_exact.
(** In dual decomposition, with a bound on the index that is an int and short vectors that
    lower the index, the number is always returned as soon as one of the vectors tried is not
    orthogonal to finitely many non-zero vectors; and there are such vectors. *)
Theorem count_total : forall P n rows vs points, library_contracts P -> polytope_input P n rows vs -> q_mode P = DualDecomposition -> integer_points n rows points ->
  q_sv P = LatteLLL -> decreasing n (q_omega P) -> 1 <= q_max_det P <= int_max ->
  exists N, (forall r, In r N -> length r = n /\ exists k, (k < n)%nat /\ nth k r 0 <> 0) /\ (exists g, length g = n /\ forall r, In r N -> zdot g r <> 0) /\
  forall guesses, (forall g, In g guesses -> length g = n) -> (exists g, In g guesses /\ forall r, In r N -> zdot g r <> 0) ->
  exists F1, forall f1, (F1 <= f1)%nat -> exists F2, forall f2, (F2 <= f2)%nat -> count (with_fuel P f1 f2) n guesses rows vs = Ok (Z.of_nat (length points)).
Proof.
  intros P n rows vs points LC PI DM IP SV DE MD. destruct (count_exact P n rows vs points LC PI) as (N & NN & H); [rewrite DM; discriminate|exact IP|]. exists N. split; [exact NN|]. split; [exact (generic_exists n N NN)|]. intros guesses LG (g & Hg & G). destruct (H guesses LG) as (F1 & H1). exists F1. intros f1 Hf1. destruct (H1 f1 Hf1) as (F2 & H2). exists F2. intros f2 Hf2. specialize (H2 f2 Hf2).
  destruct (count (with_fuel P f1 f2) n guesses rows vs) as [z|e]; [now rewrite H2|exfalso]. destruct H2 as [[_ X]|[[_ [X|[X|X]]]|[[_ [_ X]]|[_ X]]]]; [congruence|congruence|lia|lia|tauto|]. destruct (X g Hg) as (r & Hr & E). exact (G r Hr E).
Qed.
Print Assumptions count_total.
(** Irrational all-primal decomposition: the cones given have, each at its moved apex, exactly
    the integer points of the tangent cones at the vertices. *)
Definition stands_for (n : nat) (rows : list (list Z)) (v : nat -> Q) (c : vcone) : Prop :=
  forall x, length x = n -> (in_gen n (snd (fst c)) (fun k => zpoint x k - coord (fst (fst c)) k)%Q <-> in_tangent_cone n rows v (zpoint x)).
Theorem count_all_primal_exact : forall P n rows (vs : list (nat -> Q)) cones points, library_contracts P -> q_mode P = IrrationalAllPrimalDecomposition -> (0 < n)%nat -> all_vertices n rows vs -> integer_points n rows points ->
  (forall c, In c cones -> ((exists Pr k, (Pr = nonzero \/ Pr = positive) /\ reachable Pr k (fst (fst c))) /\ dim (fst (fst c)) = n) /\ triangulates n (snd (fst c)) (q_tri P (snd (fst c)))) ->
  Forall2 (stands_for n rows) vs cones ->
  exists N, (forall r, In r N -> length r = n /\ exists k, (k < n)%nat /\ nth k r 0 <> 0) /\
  forall guesses, (forall g, In g guesses -> length g = n) -> exists F1, forall f1, (F1 <= f1)%nat -> exists F2, forall f2, (F2 <= f2)%nat ->
  match count_cones (with_fuel P f1 f2) n guesses cones with
  | Ok z => z = Z.of_nat (length points)
  | Err e => e = Thrown \/
             e = Exited /\ (q_sv P = SubspaceAvoidingLLL \/ q_max_det P = 0 \/ int_max < q_max_det P) \/
             e = AssertFail /\ q_sv P = LatteLLL /\ ~ decreasing n (q_omega P) \/
             e = OutOfFuel /\ forall g, In g guesses -> exists r, In r N /\ zdot g r = 0
  end.
Proof.
  intros P n rows vs cones points (KC & OC & XG & PC & HM) EM Hn AV IP HC HS.
  assert (HT : forall x, length x = n -> lsum (map (fun c : vcone => hfun n (q_mode P) (fst (fst c)) (snd (fst c)) x) cones) = lsum (map (fun v => Tind n rows v x) vs)).
  { intros x Hx. rewrite EM. assert (PV : forall v, In v vs -> in_polyhedron n rows v) by (intros v Hv; apply AV, Hv). clear -HS Hx PV. induction HS as [|v c vs cones S1 HS IH]; [reflexivity|]. cbn [map]. rewrite !lsum_cons, IH by (intros u Hu; apply PV; now right). f_equal. cbn [hfun].
    specialize (S1 x Hx). pose proof (gen_ok n (snd (fst c)) (BrionProofs4.at_ (coord (fst (fst c))) x)) as GB. unfold BrionProofs4.at_ in GB. unfold fgen, BrionProofs4.at_. destruct (satb n (gen_rows n (snd (fst c))) (fun k => (zpoint x k - coord (fst (fst c)) k)%Q)); destruct (tind_iff n rows v x (PV v (or_introl eq_refl))) as [[-> T]|[-> T]]; try reflexivity; exfalso; [apply T, S1, GB; reflexivity|]. apply S1, GB in T. discriminate. }
  destruct (count_cones_ok P n rows points vs cones Hn KC OC PC HM XG HC AV IP HT) as (N & NN & H). exists N. split; [exact NN|]. intros guesses LG. destruct (H guesses LG) as (F1 & H1). exists F1. intros f1 Hf1. destruct (H1 f1 Hf1) as (F2 & H2). exists F2. intros f2 Hf2. specialize (H2 f2 Hf2). unfold outcome_ok in H2. change (with_fuel P f1 f2) with (fueled P f1 f2). destruct (count_cones (fueled P f1 f2) n guesses cones) as [z|e]; [exact H2|]. destruct H2 as [[H2|[H2|H2]]|H2]; tauto.
Qed.
Print Assumptions count_all_primal_exact.

(** C73.  The Ehrhart polynomial, dual and irrational primal decomposition, for a polytope all
    of whose vertices are integer points given in lowest terms: if coefficients are returned,
    the value of the polynomial at every t >= 1 is the number of integer points of tP. *)
Theorem ehrhart_exact : forall P n rows vs, library_contracts P -> polytope_input P n rows vs -> q_mode P <> IrrationalAllPrimalDecomposition ->
  (forall v, In v vs -> (exists k, reachable positive k v) /\ forall i, (i < n)%nat -> Z.gcd (num_at v i) (den_at v i) = 1 /\ exists z : Z, (coord v i == inject_Z z)%Q) ->
  exists N, (forall r, In r N -> length r = n /\ exists k, (k < n)%nat /\ nth k r 0 <> 0) /\
  forall guesses, (forall g, In g guesses -> length g = n) -> exists F1, forall f1, (F1 <= f1)%nat -> exists F2, forall f2, (F2 <= f2)%nat ->
  match ehrhart_polynomial (with_fuel P f1 f2) n guesses rows vs with
  | Ok l => length l = S n /\ forall t points, 1 <= t -> integer_points n (map (dilate_row t) rows) points -> (poly_at l (inject_Z t) == inject_Z (Z.of_nat (length points)))%Q
  | Err e => e = Thrown /\ q_mode P <> DualDecomposition \/
             e = Exited /\ (q_sv P = SubspaceAvoidingLLL \/ q_max_det P = 0 \/ int_max < q_max_det P) \/
             e = AssertFail /\ q_sv P = LatteLLL /\ ~ decreasing n (q_omega P) \/
             e = OutOfFuel /\ forall g, In g guesses -> exists r, In r N /\ zdot g r = 0
  end.
Proof.
  intros P n rows vs (KC & OC & XG & PC & HM) (Hn & LR & UV & AV & TR) NM IV. destruct (ehrhart_exact_main P n rows vs Hn KC OC PC HM XG NM LR AV TR) as (N & NN & H); [intros v Hv; destruct (IV v Hv) as [R X]; exact (conj (proj2 (UV v Hv)) (conj R X))|]. exists N. split; [exact NN|]. intros guesses LG. destruct (H guesses LG) as (F1 & H1). exists F1. intros f1 Hf1. destruct (H1 f1 Hf1) as (F2 & H2). exists F2. intros f2 Hf2. specialize (H2 f2 Hf2). unfold outcome_ok in H2. change (with_fuel P f1 f2) with (fueled P f1 f2). destruct (ehrhart_polynomial (fueled P f1 f2) n guesses rows vs) as [l|e].
  - destruct H2 as [Ll H2]. split; [exact Ll|]. intros t points Ht IP. apply H2; [lia|exact IP].
  - destruct H2 as [[H2|[H2|H2]]|H2]; tauto.
Qed.
Print Assumptions ehrhart_exact.
(** A vertex with a coordinate that is not an integer: exception, whatever the parameters. *)
Theorem ehrhart_rational_throws : forall P n rows vs guesses, (forall c, In c rows -> length c = S n) ->
  (forall v, In v vs -> (exists Pr k, (Pr = nonzero \/ Pr = positive) /\ reachable Pr k v) /\ dim v = n) ->
  (exists v i, In v vs /\ (i < n)%nat /\ forall z : Z, ~ (coord v i == inject_Z z)%Q) -> ehrhart_polynomial P n guesses rows vs = Err Thrown.
Proof. exact ehrhart_rational_main. Qed.
Print Assumptions ehrhart_rational_throws.

(** The contracts can be met (with XGCD by Euclid's algorithm), for any triangulation. *)
Definition sample_tri (V : list (list Z)) : list (list (list Z)) := match V with [a; b; c; d] => [[a; b; c]; [c; d; a]] | _ => [V] end.
Definition sample_params (mode : decomposition) : params := mkParams 40 200 1 mode LatteLLL 1 prim_omega cramer_ker xgcd_euclid sample_tri.
Theorem count_contracts_can_be_met : forall mode, library_contracts (sample_params mode) /\ forall n, (0 < n)%nat -> decreasing n (q_omega (sample_params mode)).
Proof.
  intros mode. split; [|exact prim_omega_decreasing]. split; [exact cramer_ker_ok|]. split; [exact prim_omega_ok|]. split; [exact xgcd_euclid_contract|]. split; [intros _; exact prim_omega_primitive|]. cbn. lia.
Qed.
Lemma simplicial_triangulates n V : n_vectors n V -> lin_indep n V -> triangulates n V [V].
Proof.
  intros NV LI. split; [intros T [<-|[]]; auto|]. split.
  - intros x. unfold in_gen. rewrite (proj1 NV). split.
    + intros (a & A & C). exists V. split; [now left|]. exists a. split; [exact A|]. intros i Hi. unfold origin. rewrite (C i Hi) at 1. ring.
    + intros (T & [<-|[]] & a & A & C). exists a. split; [exact A|]. intros i Hi. specialize (C i Hi). unfold origin in C. rewrite <- C. ring.
  - intros i j x Hij Hj. cbn in Hj. lia.
Qed.
(** The triangles x, y >= 0, 2x + 3y <= c. *)
Definition triangle_rows (c : Z) : list (list Z) := [[0;1;0];[0;0;1];[c;-2;-3]].
Definition triangle_vertices : list rvec := [mkRV [0;0] [1;1] false [] 0; mkRV [7;0] [2;1] false [] 0; mkRV [0;7] [1;3] false [] 0].
Definition triangle_solutions : list (list Z) := [[0;0];[0;1];[0;2];[1;0];[1;1];[2;0];[2;1];[3;0]].
Definition point2 (a b : Z) : rvec := mkRV [a;b] [1;1] false [] 0.
Definition integral_triangle_vertices : list rvec := [point2 0 0; point2 3 0; point2 0 2].
Lemma pair_usable a b c d : c <> 0 -> d <> 0 -> (exists Pr k, (Pr = nonzero \/ Pr = positive) /\ reachable Pr k (mkRV [a;b] [c;d] false [] 0)) /\ dim (mkRV [a;b] [c;d] false [] 0) = 2%nat.
Proof.
  intros Hc Hd. split; [|reflexivity]. exists nonzero, (CPair [a;b] [c;d]). split; [now left|]. split; [cbn; split; [reflexivity|]; repeat constructor; assumption|]. exists (mkRV [a;b] [c;d] false [] 0), []. split; [reflexivity|]. split; [constructor|reflexivity].
Qed.
Lemma slack2 b a1 a2 x : (slack 2 [b; a1; a2] x == inject_Z b + x 0%nat * inject_Z a1 + x 1%nat * inject_Z a2)%Q.
Proof. unfold slack. cbn [sumq nth]. ring. Qed.
Lemma triangle_all_vertices c v1 v2 v3 : 0 < c -> (v1 0%nat == 0 /\ v1 1%nat == 0)%Q -> (2 * v2 0%nat == inject_Z c /\ v2 1%nat == 0)%Q -> (v3 0%nat == 0 /\ 3 * v3 1%nat == inject_Z c)%Q -> all_vertices 2 (triangle_rows c) [v1; v2; v3].
Proof.
  intros Hc [A1 B1] [A2 B2] [A3 B3]. assert (Q0 : (0 < inject_Z c)%Q) by (unfold Qlt; cbn; lia). set (C := inject_Z c) in *.
  split; [|split].
  - assert (V : forall v, (0 <= v 0%nat -> 0 <= v 1%nat -> 2 * v 0%nat + 3 * v 1%nat <= C -> (v 0%nat == 0 /\ v 1%nat == 0 \/ v 1%nat == 0 /\ 2 * v 0%nat + 3 * v 1%nat == C \/ v 0%nat == 0 /\ 2 * v 0%nat + 3 * v 1%nat == C) -> is_vertex 2 (triangle_rows c) v)%Q).
    { intros v H1 H2 H3 T. split.
      - intros r [<-|[<-|[<-|[]]]]; rewrite slack2; fold C; unfold inject_Z; lra.
      - intros y Hy. assert (X : (y 0%nat == 0 /\ y 1%nat == 0)%Q).
        { pose proof (Hy [0;1;0] ltac:(now left)) as Y1. pose proof (Hy [0;0;1] ltac:(right; now left)) as Y2. pose proof (Hy [c;-2;-3] ltac:(right; right; now left)) as Y3. clear Hy. rewrite slack2 in Y1, Y2, Y3. cbn [sumq nth] in Y1, Y2, Y3. fold C in Y3. clearbody C. unfold inject_Z in Y1, Y2, Y3.
          destruct T as [[T1 T2]|[[T1 T2]|[T1 T2]]].
          + assert (Z1 := Y1 ltac:(lra)). assert (Z2 := Y2 ltac:(lra)). split; lra.
          + assert (Z1 := Y2 ltac:(lra)). assert (Z2 := Y3 ltac:(lra)). split; lra.
          + assert (Z1 := Y1 ltac:(lra)). assert (Z2 := Y3 ltac:(lra)). split; lra. }
        intros k Hk. destruct k as [|[|k]]; [tauto|tauto|lia]. }
    clearbody C. intros v [<-|[<-|[<-|[]]]]; apply V; lra.
  - intros v [V1 V2]. pose proof (V1 [0;1;0] ltac:(now left)) as P1. pose proof (V1 [0;0;1] ltac:(right; now left)) as P2. pose proof (V1 [c;-2;-3] ltac:(right; right; now left)) as P3. rewrite slack2 in P1, P2, P3. fold C in P3.
    assert (G : forall y : nat -> Q, ~ (y 0%nat == 0 /\ y 1%nat == 0)%Q -> ~ ((v 0%nat == 0 -> y 0%nat == 0) /\ (v 1%nat == 0 -> y 1%nat == 0) /\ (2 * v 0%nat + 3 * v 1%nat == C -> 2 * y 0%nat + 3 * y 1%nat == 0))%Q).
    { intros y NY (Y1 & Y2 & Y3). apply NY. cut (forall k, (k < 2)%nat -> (y k == 0)%Q); [intros Z; split; apply Z; lia|]. apply V2. intros r [<-|[<-|[<-|[]]]] T; rewrite slack2 in T; cbn [sumq nth]; fold C in T; clearbody C; unfold inject_Z in *; [rewrite (Y1 ltac:(lra)); ring|rewrite (Y2 ltac:(lra)); ring|].
      assert (Z := Y3 ltac:(lra)). lra. }
    clearbody C. unfold inject_Z in P1, P2, P3. assert (D : forall a b : Q, (a == b)%Q \/ ~ (a == b)%Q) by (intros a b; destruct (Qeq_dec a b); auto).
    destruct (D (v 0%nat) 0%Q) as [A|A]; destruct (D (v 1%nat) 0%Q) as [B|B].
    + exists v1. split; [now left|]. intros k Hk. destruct k as [|[|k]]; [ | |lia]; lra.
    + destruct (D (2 * v 0%nat + 3 * v 1%nat)%Q C) as [E|E].
      * exists v3. split; [right; right; now left|]. intros k Hk. destruct k as [|[|k]]; [ | |lia]; lra.
      * exfalso. apply (G (fun k => match k with O => 0 | _ => 1 end)%Q); [intros [_ X]; discriminate|]. split; [reflexivity|]. split; [tauto|tauto].
    + destruct (D (2 * v 0%nat + 3 * v 1%nat)%Q C) as [E|E].
      * exists v2. split; [right; now left|]. intros k Hk. destruct k as [|[|k]]; [ | |lia]; lra.
      * exfalso. apply (G (fun k => match k with O => 1 | _ => 0 end)%Q); [intros [X _]; discriminate|]. split; [tauto|]. split; [reflexivity|tauto].
    + exfalso. apply (G (fun k => match k with O => 3 | _ => -2 end)%Q); [intros [X _]; discriminate|]. split; [tauto|]. split; [tauto|]. intros _. reflexivity.
  - clearbody C. intros i j Hij Hj S0. cbn [length] in Hj. pose proof (S0 0%nat ltac:(lia)) as S1. pose proof (S0 1%nat ltac:(lia)) as S2.
    assert (E : (i = 0 /\ j = 1 \/ i = 0 /\ j = 2 \/ i = 1 /\ j = 2)%nat) by lia. destruct E as [[-> ->]|[[-> ->]|[-> ->]]]; cbn [nth] in S1, S2; lra.
Qed.
Ltac triangle_tri := match goal with |- triangulates 2 ?V _ => let V' := eval vm_compute in V in change V with V' end; cbn [sample_params q_tri sample_tri]; (apply simplicial_triangulates; [split; [reflexivity|repeat constructor]|apply det_indep; vm_compute; discriminate]).
(** 2x + 3y <= 7, with two vertices that are not integer points. *)
Example triangle_input : forall mode, polytope_input (sample_params mode) 2 (triangle_rows 7) triangle_vertices /\ integer_points 2 (triangle_rows 7) triangle_solutions.
Proof.
  intros mode. split; [split; [lia|]; split; [|split; [|split]]|].
  - intros c [<-|[<-|[<-|[]]]]; reflexivity.
  - intros v [<-|[<-|[<-|[]]]]; apply pair_usable; lia.
  - apply triangle_all_vertices; [lia| | |]; split; vm_compute; reflexivity.
  - intros v [<-|[<-|[<-|[]]]]; triangle_tri.
  - split; [repeat constructor; cbn; intuition discriminate|]. intros x. split.
    + intros H. cbn in H. repeat (destruct H as [<-|H]; [split; [reflexivity|]; intros c [<-|[<-|[<-|[]]]]; vm_compute; discriminate|]). destruct H.
    + intros [L H]. destruct x as [|a [|b [|? ?]]]; try discriminate. clear L. pose proof (H [0;1;0] ltac:(now left)) as P1. pose proof (H [0;0;1] ltac:(right; now left)) as P2. pose proof (H [7;-2;-3] ltac:(right; right; now left)) as P3. rewrite slack2 in P1, P2, P3. unfold zpoint, Qle, Qplus, Qmult, inject_Z in P1, P2, P3. cbn [nth Qnum Qden] in P1, P2, P3.
      assert (A : a = 0 \/ a = 1 \/ a = 2 \/ a = 3) by lia. assert (B : b = 0 \/ b = 1 \/ b = 2) by lia. destruct A as [->|[->|[->| ->]]]; destruct B as [->|[->| ->]]; cbn; try tauto; lia.
Qed.
Example triangle_count : count (sample_params DualDecomposition) 2 [[1;0];[3;5]] (triangle_rows 7) triangle_vertices = Ok 8 /\ count (sample_params IrrationalPrimalDecomposition) 2 [[7;5]] (triangle_rows 7) triangle_vertices = Ok 8 /\
  ehrhart_polynomial (sample_params DualDecomposition) 2 [[3;5]] (triangle_rows 7) triangle_vertices = Err Thrown.
Proof. vm_compute. auto. Qed.
(** 2x + 3y <= 6, for the Ehrhart polynomial 1 + 3t + 3t^2. *)
Example integral_triangle_input : forall mode, polytope_input (sample_params mode) 2 (triangle_rows 6) integral_triangle_vertices /\
  forall v, In v integral_triangle_vertices -> (exists k, reachable positive k v) /\ forall i, (i < 2)%nat -> Z.gcd (num_at v i) (den_at v i) = 1 /\ exists z : Z, (coord v i == inject_Z z)%Q.
Proof.
  intros mode. split; [split; [lia|]; split; [|split; [|split]]|].
  - intros c [<-|[<-|[<-|[]]]]; reflexivity.
  - intros v [<-|[<-|[<-|[]]]]; apply pair_usable; lia.
  - apply triangle_all_vertices; [lia| | |]; split; vm_compute; reflexivity.
  - intros v [<-|[<-|[<-|[]]]]; triangle_tri.
  - assert (R : forall a b, (exists k, reachable positive k (point2 a b)) /\ forall i, (i < 2)%nat -> Z.gcd (num_at (point2 a b) i) (den_at (point2 a b) i) = 1 /\ exists z : Z, (coord (point2 a b) i == inject_Z z)%Q).
    { intros a b. split.
      - exists (CPair [a;b] [1;1]). split; [cbn; split; [reflexivity|]; repeat constructor|]. exists (point2 a b), []. split; [reflexivity|]. split; [constructor|reflexivity].
      - intros i Hi. destruct i as [|[|i]]; [ | |lia]; unfold num_at, den_at, coord; cbn [nth point2 enumerator denominator]; (split; [apply Z.gcd_1_r|]); [exists a|exists b]; unfold coord, num_at, den_at; cbn [nth point2 enumerator denominator]; field. }
    intros v [<-|[<-|[<-|[]]]]; apply R.
Qed.
Example integral_triangle_ehrhart : match ehrhart_polynomial (sample_params DualDecomposition) 2 [[2;-3];[3;5]] (triangle_rows 6) integral_triangle_vertices with Ok l => map Qred l = [1; 3; 3]%Q | Err _ => False end.
Proof. vm_compute. reflexivity. Qed.
(** All-primal decomposition of the segment [0,3], with apexes moved to -1/2 and 7/2. *)
Definition segment_cones : list vcone := [(mkRV [-1] [2] false [] 0, [[1]], []); (mkRV [7] [2] false [] 0, [[-1]], [])].
Definition segment_ends : list (nat -> Q) := [fun _ => 0%Q; fun _ => 3%Q].
Lemma slack1 b a1 x : (slack 1 [b; a1] x == inject_Z b + x 0%nat * inject_Z a1)%Q.
Proof. unfold slack. cbn [sumq nth]. ring. Qed.
Example segment_input : all_vertices 1 [[0;1];[3;-1]] segment_ends /\ integer_points 1 [[0;1];[3;-1]] [[0];[1];[2];[3]] /\ Forall2 (stands_for 1 [[0;1];[3;-1]]) segment_ends segment_cones /\
  (forall c, In c segment_cones -> ((exists Pr k, (Pr = nonzero \/ Pr = positive) /\ reachable Pr k (fst (fst c))) /\ dim (fst (fst c)) = 1%nat) /\ triangulates 1 (snd (fst c)) (sample_tri (snd (fst c)))).
Proof.
  split; [split; [|split]|split; [split|split]].
  - intros v [<-|[<-|[]]]; (split; [intros c [<-|[<-|[]]]; vm_compute; discriminate|]); intros y Hy k Hk; (destruct k; [|lia]).
    + specialize (Hy [0;1] ltac:(now left) ltac:(vm_compute; reflexivity)). cbn [sumq nth] in Hy. unfold inject_Z in Hy. lra.
    + specialize (Hy [3;-1] ltac:(right; now left) ltac:(vm_compute; reflexivity)). cbn [sumq nth] in Hy. unfold inject_Z in Hy. lra.
  - intros v [V1 V2]. destruct (Qeq_dec (v 0%nat) 0) as [E|E]; [exists (fun _ => 0%Q); split; [now left|intros k Hk; destruct k; [exact E|lia]]|]. destruct (Qeq_dec (v 0%nat) 3) as [E3|E3]; [exists (fun _ => 3%Q); split; [right; now left|intros k Hk; destruct k; [exact E3|lia]]|].
    exfalso. specialize (V2 (fun _ => 1%Q)). assert (X : (1 == 0)%Q); [|discriminate]. apply (V2) with (k := 0%nat); [|lia]. intros c [<-|[<-|[]]] T; rewrite slack1 in T; unfold inject_Z in T; exfalso; [apply E|apply E3]; lra.
  - intros i j Hij Hj S0. cbn [length segment_ends] in Hj. assert (i = 0 /\ j = 1)%nat as [-> ->] by lia. specialize (S0 0%nat ltac:(lia)). discriminate.
  - repeat constructor; cbn; intuition discriminate.
  - intros x. split.
    + intros H. cbn in H. repeat (destruct H as [<-|H]; [split; [reflexivity|]; intros c [<-|[<-|[]]]; vm_compute; discriminate|]). destruct H.
    + intros [L H]. destruct x as [|a [|? ?]]; try discriminate. pose proof (H [0;1] ltac:(now left)) as P1. pose proof (H [3;-1] ltac:(right; now left)) as P2. rewrite slack1 in P1, P2. unfold zpoint, Qle, Qplus, Qmult, inject_Z in P1, P2. cbn [nth Qnum Qden] in P1, P2. assert (A : a = 0 \/ a = 1 \/ a = 2 \/ a = 3) by lia. destruct A as [->|[->|[->| ->]]]; cbn; tauto.
  - assert (G : forall (s : Z) y, in_gen 1 [[s]] y <-> exists a, (0 <= a /\ y 0%nat == a * inject_Z s)%Q).
    { intros s y. split.
      - intros (a & A & C). exists (a 0%nat). split; [apply A; cbn; lia|]. rewrite (C 0%nat ltac:(lia)). cbn [length sumq vat nth]. unfold vat. cbn [nth]. ring.
      - intros (a & A & C). exists (fun _ => a). split; [intros; exact A|]. intros i Hi. destruct i; [|lia]. rewrite C. cbn [length sumq]. unfold vat. cbn [nth]. ring. }
    apply Forall2_cons; [|apply Forall2_cons; [|apply Forall2_nil]]; intros x Hx; destruct x as [|a [|? ?]]; try discriminate; cbn [fst snd]; rewrite G; unfold coord, num_at, den_at, in_tangent_cone, zpoint; cbn [nth enumerator denominator]; unfold inject_Z.
    + split.
      * intros (q & Hq & E) c [<-|[<-|[]]] T; rewrite slack1 in *; [|vm_compute in T; discriminate]. assert (X : (-1 # 2 <= a # 1)%Q). { assert (Y : (-1 / 2 == -1 # 2)%Q) by reflexivity. change (2 # 1)%Q with 2%Q in E. change (-1 # 1)%Q with (-1)%Q in E. rewrite Y in E. lra. } unfold Qle, inject_Z, Qplus, Qmult in *. cbn [Qnum Qden] in *. lia.
      * intros H. specialize (H [0;1] ltac:(now left) ltac:(vm_compute; reflexivity)). rewrite slack1 in H. unfold inject_Z in H. exists ((a # 1) + (1 # 2))%Q. split; [lra|]. change (-1 # 1)%Q with (-1)%Q. change (2 # 1)%Q with 2%Q. field.
    + split.
      * intros (q & Hq & E) c [<-|[<-|[]]] T; rewrite slack1 in *; [vm_compute in T; discriminate|]. assert (X : (a # 1 <= 7 # 2)%Q). { assert (Y : (7 / 2 == 7 # 2)%Q) by reflexivity. change (2 # 1)%Q with 2%Q in E. change (7 # 1)%Q with 7%Q in E. rewrite Y in E. change (-1 # 1)%Q with (-1)%Q in E. lra. } unfold Qle, inject_Z, Qplus, Qmult in *. cbn [Qnum Qden] in *. lia.
      * intros H. specialize (H [3;-1] ltac:(right; now left) ltac:(vm_compute; reflexivity)). rewrite slack1 in H. unfold inject_Z in H. exists ((7 # 2) - (a # 1))%Q. split; [lra|]. change (-1 # 1)%Q with (-1)%Q. change (2 # 1)%Q with 2%Q. change (7 # 1)%Q with 7%Q. field.
  - assert (R : forall a b, b <> 0 -> (exists Pr k, (Pr = nonzero \/ Pr = positive) /\ reachable Pr k (mkRV [a] [b] false [] 0)) /\ dim (mkRV [a] [b] false [] 0) = 1%nat).
    { intros a b Hb. split; [|reflexivity]. exists nonzero, (CPair [a] [b]). split; [now left|]. split; [cbn; split; [reflexivity|]; repeat constructor; assumption|]. exists (mkRV [a] [b] false [] 0), []. split; [reflexivity|]. split; [constructor|reflexivity]. }
    intros c [<-|[<-|[]]]; cbn [fst snd]; (split; [apply R; lia|]); (apply simplicial_triangulates; [split; [reflexivity|repeat constructor]|apply det_indep; vm_compute; discriminate]).
Qed.
Example segment_count : count_cones (sample_params IrrationalAllPrimalDecomposition) 1 [[0];[1]] segment_cones = Ok 4.
Proof. vm_compute. reflexivity. Qed.
(** The pyramid with base [-1,1]^2 and apex (0,0,2): four facets meet at the apex. *)
Definition pyramid_rows : list (list Z) := [[0;0;0;1];[2;2;0;-1];[2;0;2;-1];[2;-2;0;-1];[2;0;-2;-1]].
Definition point3 (a b c : Z) : rvec := mkRV [a;b;c] [1;1;1] false [] 0.
Definition pyramid_vertices : list rvec := [point3 0 0 2; point3 1 1 0; point3 1 (-1) 0; point3 (-1) 1 0; point3 (-1) (-1) 0].
Example pyramid_count : count (sample_params DualDecomposition) 3 [[1;0;0];[3;7;17]] pyramid_rows pyramid_vertices = Ok 11 /\ count (sample_params IrrationalPrimalDecomposition) 3 [[3;7;17]] pyramid_rows pyramid_vertices = Ok 11.
Proof. vm_compute. auto. Qed.
Example pyramid_ehrhart : match ehrhart_polynomial (sample_params DualDecomposition) 3 [[3;7;17]] pyramid_rows pyramid_vertices with Ok l => map Qred l = [1; 10 # 3; 4; 8 # 3]%Q /\ (poly_at l 1 == 11)%Q | Err _ => False end.
Proof. vm_compute. auto. Qed.
