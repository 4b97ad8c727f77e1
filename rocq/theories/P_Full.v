(** C80: the number of integer points, with the triangulation (C78) and the short vectors (C79)
    of the code in the place of assumptions. *)
From Coq Require Import QArith.
From Verif Require Import Common Hermite Det DetProofs RatVec RatVecSpec Piped PipedSpec SmithSpec SmithProofs2 ConeSpec Irrational CountSpec Barvinok BarvinokSpec BarvinokProofs4 Count CountProofs CountProofs7 Util UtilSpec UtilProofs Triang TriangSpec Omega OmegaSpec OmegaProofs6 OmegaProofs7 P_Count P_Triang P_Omega.
Open Scope Z_scope.

(** The libraries: cddlib's facets, rounding to double, rand(), NTL's LLL, LatticeSolve,
    image() and XGCD.  [pos] says where in the stream of random numbers the triangulation of a
    cone starts. *)
Record libraries := mkLib { l_dd : list (list Z) -> option (list (bool * list bool)); l_rnd : Z -> Z; l_rand : nat -> Z; l_lll : list (list Z) -> list (list Z) * list (list Z);
  l_solve : list (list Z) -> list Z -> option (list Z); l_ker : list (list Z) -> list Z; l_xg : Z -> Z -> Z * Z * Z }.
Definition contracts (K : libraries) : Prop :=
  cddlib_contract (l_dd K) /\ double_rounding (l_rnd K) /\ (forall i, 0 <= l_rand K i < 2 ^ 31) /\ lll_contract (l_lll K) /\ solve_contract (l_solve K) /\ relation_contract (l_ker K) /\ xgcd_contract (l_xg K).
(** count.cpp with its default options, except that the maximal index and the maximal height
    of the random triangulation may be set: dual decomposition, LattE's short vectors,
    regular triangulation of the normal cones with cddlib. *)
Section Program.
Context (K : libraries) (max_height max_det : Z) (fuel : nat) (h : heights) (pos : list (list Z) -> nat).
Definition triangulation (n : nat) (R : list (list Z)) : outcome (list (list (list Z)) * nat) := triangulate_cone (l_dd K) (l_rnd K) max_height false true n (l_rand K) fuel h R (pos R).
Definition latte (n f1 f2 : nat) : params :=
  mkParams f1 f2 0 DualDecomposition LatteLLL max_det (short_vector (l_lll K) (l_solve K)) (l_ker K) (l_xg K) (fun R => match triangulation n R with Ok (Ts, _) => Ts | Err _ => [] end).
End Program.
(** The polytope, given by inequalities and the list of its vertices. *)
Definition polytope (n : nat) (rows : list (list Z)) (vs : list rvec) : Prop :=
  (0 < n)%nat /\ (forall c, In c rows -> length c = S n) /\
  (forall v, In v vs -> (exists Pr k, (Pr = nonzero \/ Pr = positive) /\ reachable Pr k v) /\ dim v = n) /\ all_vertices n rows (map coord vs).
Lemma latte_ok K mh md fuel h pos n f1 f2 : contracts K -> 1 <= mh <= INT_MAX -> 0 <= md -> library_contracts (latte K mh md fuel h pos n f1 f2).
Proof.
  intros (_ & _ & _ & LC & SC & KC & XG) _ Hm. destruct (short_vector_contract (l_lll K) (l_solve K) LC SC) as [A B]. split; [exact KC|]. split; [exact A|]. split; [exact XG|]. split; [intros _; exact B|exact Hm].
Qed.
Lemma latte_input K mh md fuel h pos n f1 f2 rows vs : contracts K -> 1 <= mh <= INT_MAX -> polytope n rows vs ->
  (forall v, In v vs -> exists r, triangulation K mh fuel h pos n (outer_normals n rows (coord v)) = Ok r) -> polytope_input (latte K mh md fuel h pos n f1 f2) n rows vs.
Proof.
  intros (DD & DR & RS & _) HM (Hn & LR & UV & AV) TR. split; [exact Hn|]. split; [exact LR|]. split; [exact UV|]. split; [exact AV|]. intros v Hv. destruct (TR v Hv) as ([Ts k1] & E). cbn [latte q_tri]. rewrite E.
  apply (normal_cones_triangulated (l_dd K) (l_rnd K) mh true n (l_rand K) fuel h rows (coord v) (pos (outer_normals n rows (coord v))) Ts k1); auto. apply AV. now apply in_map.
Qed.
(** C80.  Any dimension below 10: if the triangulations of the normal cones are found, and a
    number is returned, it is the number of integer points of the polytope; failing that, the
    assertion after the second choice of short vector fails, or every vector tried is
    orthogonal to one of finitely many vectors that depend only on the input. *)
Theorem latte_count_exact : forall K max_height max_det fuel h pos n rows vs points,
  contracts K -> 1 <= max_height <= INT_MAX -> 1 <= max_det <= Piped.int_max -> (n < 10)%nat -> polytope n rows vs -> integer_points n rows points ->
  (forall v, In v vs -> exists r, triangulation K max_height fuel h pos n (outer_normals n rows (coord v)) = Ok r) ->
  exists N, (forall r, In r N -> length r = n /\ exists k, (k < n)%nat /\ nth k r 0 <> 0) /\
  forall guesses, (forall g, In g guesses -> length g = n) -> exists F1, forall f1, (F1 <= f1)%nat -> exists F2, forall f2, (F2 <= f2)%nat ->
  match count (latte K max_height max_det fuel h pos n f1 f2) n guesses rows vs with
  | Ok z => z = Z.of_nat (length points)
  | Err e => e = AssertFail /\ ~ decreasing n (short_vector (l_lll K) (l_solve K)) \/ e = OutOfFuel /\ forall g, In g guesses -> exists r, In r N /\ zdot g r = 0
  end.
Proof.
  intros K mh md fuel h pos n rows vs points CO HM HD _ PO IP TR.
  destruct (count_exact (latte K mh md fuel h pos n 0 0) n rows vs points (latte_ok K mh md fuel h pos n 0 0 CO HM ltac:(lia)) (latte_input K mh md fuel h pos n 0 0 rows vs CO HM PO TR)) as (N & NN & H); [discriminate|exact IP|].
  exists N. split; [exact NN|]. intros guesses LG. destruct (H guesses LG) as (F1 & H1). exists F1. intros f1 Hf1. destruct (H1 f1 Hf1) as (F2 & H2). exists F2. intros f2 Hf2. specialize (H2 f2 Hf2).
  change (with_fuel (latte K mh md fuel h pos n 0 0) f1 f2) with (latte K mh md fuel h pos n f1 f2) in H2. destruct (count (latte K mh md fuel h pos n f1 f2) n guesses rows vs) as [z|e]; [exact H2|].
  cbn [latte q_mode q_sv q_max_det q_omega] in H2. destruct H2 as [[_ X]|[[_ [X|[X|X]]]|[(A & _ & X)|X]]]; [congruence|discriminate|lia|lia|left; auto|right; exact X].
Qed.
Print Assumptions latte_count_exact.
(** Up to dimension 5, with an LLL that reduces, the number is returned whenever one of the
    vectors tried avoids those finitely many hyperplanes; and there are such vectors. *)
Theorem latte_count_total : forall K max_height max_det fuel h pos n rows vs points,
  contracts K -> lll_reduces (l_lll K) -> 1 <= max_height <= INT_MAX -> 1 <= max_det <= Piped.int_max -> (n <= 5)%nat -> polytope n rows vs -> integer_points n rows points ->
  (forall v, In v vs -> exists r, triangulation K max_height fuel h pos n (outer_normals n rows (coord v)) = Ok r) ->
  exists N, (forall r, In r N -> length r = n /\ exists k, (k < n)%nat /\ nth k r 0 <> 0) /\ (exists g, length g = n /\ forall r, In r N -> zdot g r <> 0) /\
  forall guesses, (forall g, In g guesses -> length g = n) -> (exists g, In g guesses /\ forall r, In r N -> zdot g r <> 0) ->
  exists F1, forall f1, (F1 <= f1)%nat -> exists F2, forall f2, (F2 <= f2)%nat -> count (latte K max_height max_det fuel h pos n f1 f2) n guesses rows vs = Ok (Z.of_nat (length points)).
Proof.
  intros K mh md fuel h pos n rows vs points CO RD HM HD H5 PO IP TR. pose proof CO as (_ & _ & _ & LC & SC & _).
  exact (count_total (latte K mh md fuel h pos n 0 0) n rows vs points (latte_ok K mh md fuel h pos n 0 0 CO HM ltac:(lia)) (latte_input K mh md fuel h pos n 0 0 rows vs CO HM PO TR) eq_refl IP eq_refl (short_vector_decreasing n (l_lll K) (l_solve K) H5 LC RD SC) HD).
Qed.
Print Assumptions latte_count_total.

(** The hypotheses are met by the triangle 2x + 3y <= 7, x, y >= 0. *)
Definition sample_libraries : libraries := mkLib sample_dd (fun p => p) sample_rand some_lll some_solve cramer_ker xgcd_euclid.
Example latte_met : contracts sample_libraries /\ lll_reduces (l_lll sample_libraries) /\ polytope 2 (triangle_rows 7) triangle_vertices /\ integer_points 2 (triangle_rows 7) triangle_solutions /\
  forall v, In v triangle_vertices -> exists r, triangulation sample_libraries 10000 5 RandomHeights (fun _ => 0%nat) 2 (outer_normals 2 (triangle_rows 7) (coord v)) = Ok r.
Proof.
  destruct (triangle_input DualDecomposition) as [(A & B & C & D & _) IP]. split; [|split; [exact some_lll_reduces|split; [split; [exact A|split; [exact B|split; [exact C|exact D]]]|split; [exact IP|]]]].
  - split; [exact sample_dd_contract|]. split; [exact exact_is_rounding|]. split; [|split; [exact some_lll_ok|split; [exact some_solve_ok|split; [exact cramer_ker_ok|exact xgcd_euclid_contract]]]]. intros i. unfold sample_libraries, l_rand, sample_rand. destruct (i =? 2)%nat; lia.
  - intros v [<-|[<-|[<-|[]]]]; eexists; vm_compute; reflexivity.
Qed.
(** A run with the LLL that changes nothing: the normal cones have index 1, 2 and 3. *)
Example latte_run : count (latte (mkLib sample_dd (fun p => p) sample_rand no_lll some_solve cramer_ker xgcd_euclid) 10000 1 5 RandomHeights (fun _ => 0%nat) 2 40 200) 2 [[1;0];[3;5]] (triangle_rows 7) triangle_vertices = Ok 8.
Proof. vm_compute. reflexivity. Qed.
