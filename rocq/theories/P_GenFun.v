(** C74, C75: the multivariate generating function written as Maple input.
    Specification: GenFunSpec.v, CountSpec.v, PreprocSpec.v. *)
From Coq Require Import QArith Qfield Lqa String.
From Verif Require Import Common SmithSpec SmithProofs2 ZMat Hermite HermiteSpec Det DetProofs RatVec RatVecSpec RatVecProofs Piped PipedSpec PipedProofs PipedProofs4 ConeSpec Irrational Exponential ExpSpec ExpProofs3 CountSpec Barvinok BarvinokSpec BarvinokProofs4 Preproc PreprocSpec BrionLinear BrionProofs EulerProofs BrionProofs2 BrionProofs3 BrionProofs4 BrionProofs5 Count CountProofs CountProofs2 CountProofs3 CountProofs4 CountProofs5 CountProofs6 CountProofs7 P_Count P_Hermite Text GenFun GenFunSpec GenFunProofs2 GenFunProofs3 GenFunProofs4 GenFunProofs5 GenFunProofs6 GenFunProofs7.
Open Scope Z_scope.

(** Failures of the decomposition (see C72). *)
Definition decomposition_failure (n : nat) (P : params) (e : err) : Prop :=
  e = Thrown /\ q_mode P <> DualDecomposition \/
  e = Exited /\ (q_sv P = SubspaceAvoidingLLL \/ q_max_det P = 0 \/ int_max < q_max_det P) \/
  e = AssertFail /\ q_sv P = LatteLLL /\ ~ decreasing n (q_omega P).
(** F is 1 on the integer points of the polyhedron and 0 on the others. *)
Definition indicator (n : nat) (rows : list (list Z)) (F : list Z -> Z) : Prop :=
  forall x, length x = n -> (in_polyhedron n rows (zpoint x) -> F x = 1) /\ (~ in_polyhedron n rows (zpoint x) -> F x = 0).
Lemma cones_given P n rows vs : polytope_input P n rows vs -> q_mode P <> IrrationalAllPrimalDecomposition ->
  dual_cones n rows vs = Ok (map (fun v => (v, outer_normals n rows (coord v), [])) vs) /\
  (forall c, In c (map (fun v => (v, outer_normals n rows (coord v), [] : list Z)) vs) -> usable n (fst (fst c)) /\ triangulates n (snd (fst c)) (q_tri P (snd (fst c)))) /\
  forall x, length x = n -> lsum (map (fun c : vcone => hfun n (q_mode P) (fst (fst c)) (snd (fst c)) x) (map (fun v => (v, outer_normals n rows (coord v), [])) vs)) = lsum (map (fun v => Tind n rows v x) (map coord vs)).
Proof.
  intros (Hn & LR & UV & AV & TR) NM. split; [|split].
  - apply mapM_all. intros v Hv. rewrite (proj1 (tight_ok n rows v (UV v Hv) LR)). reflexivity.
  - intros c Hc. apply in_map_iff in Hc as (v & <- & Hv). cbn [fst snd]. split; [exact (UV v Hv)|exact (TR v Hv)].
  - intros x Hx. rewrite !map_map. apply lsum_ext. intros v Hv. cbn [fst snd]. rewrite <- fpol_tind; [|apply AV; now apply in_map|exact LR]. unfold hfun. destruct (q_mode P); [reflexivity|reflexivity|congruence].
Qed.

(** C74.  A polyhedron with at least one vertex, bounded or not; dual and irrational primal
    decomposition.  If a text is written, it is an expression in x[0], ..., x[n-1] for a sum of
    cones, and the power series of that sum, brought to a common denominator, is the generating
    function of the integer points. *)
Theorem generating_function_exact : forall P n rows vs, library_contracts P -> polytope_input P n rows vs -> q_mode P <> IrrationalAllPrimalDecomposition -> vs <> [] ->
  exists F1, forall f1, (F1 <= f1)%nat -> exists F2, forall f2, (F2 <= f2)%nat ->
  match generating_function (with_fuel P f1 f2) n None rows vs with
  | Ok t => exists cones, stands n t cones /\ nonzero_vectors n (flat_map (fun c => snd (fst c)) cones) /\ forall F, indicator n rows F -> expands n cones F
  | Err e => decomposition_failure n P e
  end.
Proof.
  intros P n rows vs (KC & OC & XG & PC & HM) PI NM NV. destruct (cones_given P n rows vs PI NM) as (DC & HC & HT). destruct PI as (Hn & LR & UV & AV & TR).
  assert (NV' : map coord vs <> []) by (destruct vs; [congruence|discriminate]).
  destruct (generating_main P n None rows (map coord vs) _ Hn KC OC PC HM XG HC AV NV' I HT) as (F1 & H1). exists F1. intros f1 Hf1. destruct (H1 f1 Hf1) as (F2 & H2). exists F2. intros f2 Hf2. specialize (H2 f2 Hf2).
  unfold generating_function. rewrite DC. cbn [bind]. change (with_fuel P f1 f2) with (fueled P f1 f2). destruct (generating_cones (fueled P f1 f2) n None _) as [t|e]; [|exact H2].
  destruct H2 as (cs & SC & ST & EX & _). exists cs. split; [exact ST|]. split; [exact (sound_rays n cs SC)|]. intros F HF. refine (expands_ext n cs _ _ _ _ EX).
  - intros x Lx. symmetry. exact (ind_spec n rows F HF x Lx).
  - revert SC. apply Forall_impl. intros [[k rays] pts] ((_ & _ & R & W) & _ & _ & L). exact (conj L (conj R W)).
Qed.
Print Assumptions generating_function_exact.
(** For a polytope the value of the expression is the sum of the monomials of the integer
    points, wherever no denominator is zero; and there are such values. *)
Theorem generating_function_polytope : forall P n rows vs points, library_contracts P -> polytope_input P n rows vs -> q_mode P <> IrrationalAllPrimalDecomposition -> vs <> [] -> integer_points n rows points ->
  exists F1, forall f1, (F1 <= f1)%nat -> exists F2, forall f2, (F2 <= f2)%nat ->
  match generating_function (with_fuel P f1 f2) n None rows vs with
  | Ok t => exists N, nonzero_vectors n N /\ stands_for_points n t N points
  | Err e => decomposition_failure n P e
  end.
Proof.
  intros P n rows vs points (KC & OC & XG & PC & HM) PI NM NV IP. destruct (cones_given P n rows vs PI NM) as (DC & HC & HT). destruct PI as (Hn & LR & UV & AV & TR).
  assert (NV' : map coord vs <> []) by (destruct vs; [congruence|discriminate]).
  destruct (generating_main P n None rows (map coord vs) _ Hn KC OC PC HM XG HC AV NV' I HT) as (F1 & H1). exists F1. intros f1 Hf1. destruct (H1 f1 Hf1) as (F2 & H2). exists F2. intros f2 Hf2. specialize (H2 f2 Hf2).
  unfold generating_function. rewrite DC. cbn [bind]. change (with_fuel P f1 f2) with (fueled P f1 f2). destruct (generating_cones (fueled P f1 f2) n None _) as [t|e]; [|exact H2].
  destruct H2 as (cs & SC & ST & _ & VA). exists (all_rays cs). split; [exact (sound_rays n cs SC)|]. exact (stands_points n t cs points (points_len n rows points IP) ST (VA points IP)).
Qed.
Print Assumptions generating_function_polytope.
Theorem regular_values_exist : forall n N, nonzero_vectors n N -> exists x, (forall k, (k < n)%nat -> ~ (x k == 0)%Q) /\ forall r, In r N -> ~ (monomial x r == 1)%Q.
Proof. exact generic_point. Qed.
Print Assumptions regular_values_exist.
(** In dual decomposition, with a bound on the index that is an int and short vectors that
    lower the index, the text is always written. *)
Theorem generating_function_total : forall P n rows vs points, library_contracts P -> polytope_input P n rows vs -> q_mode P = DualDecomposition -> vs <> [] -> integer_points n rows points ->
  q_sv P = LatteLLL -> decreasing n (q_omega P) -> 1 <= q_max_det P <= int_max ->
  exists F1, forall f1, (F1 <= f1)%nat -> exists F2, forall f2, (F2 <= f2)%nat ->
  exists t N, generating_function (with_fuel P f1 f2) n None rows vs = Ok t /\ nonzero_vectors n N /\ stands_for_points n t N points.
Proof.
  intros P n rows vs points LC PI DM NV IP SV DE MD. destruct (generating_function_polytope P n rows vs points LC PI ltac:(rewrite DM; discriminate) NV IP) as (F1 & H1). exists F1. intros f1 Hf1. destruct (H1 f1 Hf1) as (F2 & H2). exists F2. intros f2 Hf2. specialize (H2 f2 Hf2).
  destruct (generating_function (with_fuel P f1 f2) n None rows vs) as [t|e].
  - destruct H2 as (N & A & B). exists t, N. auto.
  - exfalso. destruct H2 as [[_ X]|[[_ [X|[X|X]]]|[_ [_ X]]]]; [congruence|congruence|lia|lia|tauto].
Qed.
Print Assumptions generating_function_total.
(** The list of cones written at once (coefficients not zero, at least one cone and a point in
    each): an assignment to gF of the same sum. *)
Theorem written_list : forall n cones, cones <> [] -> (forall c, In c cones -> fst (fst c) <> 0 /\ snd (fst c) <> [] /\ snd c <> [] /\ Forall (fun r => length r = n) (snd (fst c)) /\ Forall (fun r => length r = n) (snd c)) ->
  exists t, write_list cones n = Ok (lit "gF:=" ++ t ++ lit ";" ++ newline)%list /\ stands n t cones.
Proof.
  intros n cones NE H. destruct (write_list_ok n cones NE) as (t & e & E & R & V).
  - apply Forall_forall. intros c Hc. destruct (H c Hc) as (A & B & _ & C & D). destruct c as [[k rays] pts]. exact (conj A (conj B (conj C D))).
  - apply Forall_forall. intros c Hc. apply (H c Hc).
  - exists t. split; [exact E|]. right. exists e. auto.
Qed.
Print Assumptions written_list.
(** It fails on the empty list, and a coefficient 0 gives a text that is no expression. *)
Theorem written_list_refuted :
  (forall n, write_list [] n = Err NullDeref) /\
  write_list [(1, [[1]], [[0]]); (0, [[1]], [[0]])] 1 = Ok (lit "gF:=1/((1-x[0]))+;" ++ newline)%list /\ reads (lit "1/((1-x[0]))+") = None.
Proof. split; [reflexivity|]. vm_compute. auto. Qed.
Print Assumptions written_list_refuted.

(** C75.  A polytope given by equations and inequalities; the equations were eliminated (C45)
    without dilation, giving a particular solution, a basis and the reduced inequalities.  With
    cones of index 1, the text is an expression for the integer solutions of the original
    system. *)
Theorem generating_function_equations_partial : forall P n eqs ineqs part basis rows vs points, library_contracts P -> q_mode P <> IrrationalAllPrimalDecomposition -> q_max_det P = 1 -> q_sv P <> SubspaceAvoidingLLL -> (0 < n)%nat ->
  corresponds n 1 eqs ineqs part basis rows -> let m := length basis in let reduced := map (firstn (S m)) rows in
  polytope_input P m reduced vs -> vs <> [] ->
  NoDup points -> (forall x, In x points <-> length x = n /\ sat_eqs n 1 eqs (fun k => nth k x 0) /\ sat_ineqs n 1 ineqs (fun k => nth k x 0)) ->
  exists F1, forall f1, (F1 <= f1)%nat -> exists F2, forall f2, (F2 <= f2)%nat ->
  match generating_function (with_fuel P f1 f2) m (Some (lifting n part basis)) reduced vs with
  | Ok t => exists N, nonzero_vectors n N /\ stands_for_points n t N points
  | Err e => decomposition_failure m P e
  end.
Proof.
  intros P n eqs ineqs part basis rows vs points (KC & OC & XG & PC & HM) NM M1 SV Hn CO m reduced PI NV ND PT. destruct (cones_given P m reduced vs PI NM) as (DC & HC & HT). destruct PI as (Hm & LR & UV & AV & TR).
  destruct (reduced_points n eqs ineqs part basis rows CO points ND PT) as (ys & IP & EY). destruct (lift_lengths n part basis) as (LA & Lb & WA).
  set (AA := map (fun i => map (fun g => nth i g 0) basis) (seq 0 n)) in *. set (b := map (fun i => nth i part 0) (seq 0 n)) in *.
  assert (NV' : map coord vs <> []) by (destruct vs; [congruence|discriminate]).
  destruct (generating_main P m (Some (lifting n part basis)) reduced (map coord vs) _ Hm KC OC PC HM XG HC AV NV' (conj Hn (conj LA (conj Lb (conj M1 SV)))) HT) as (F1 & H1). exists F1. intros f1 Hf1. destruct (H1 f1 Hf1) as (F2 & H2). exists F2. intros f2 Hf2. specialize (H2 f2 Hf2).
  unfold generating_function. rewrite DC. cbn [bind]. change (with_fuel P f1 f2) with (fueled P f1 f2). destruct (generating_cones (fueled P f1 f2) m (Some (lifting n part basis)) _) as [t|e]; [|exact H2].
  destruct H2 as (cs & SC & ST & _ & VA). unfold lifting in ST. fold AA in ST. fold b in ST. destruct ST as [L1 ST]. exists (all_rays (map (project_cone n AA b) cs)).
  assert (PR : Forall (printable m) cs) by (revert SC; apply Forall_impl; intros c (H & _); exact H). split.
  - intros r Hr. unfold all_rays in Hr. apply in_flat_map in Hr as (c & Hc & Hr). apply in_map_iff in Hc as (c' & <- & Hc). cbn [project_cone fst snd] in Hr. apply in_map_iff in Hr as (r' & <- & Hr). split; [unfold project_ray; now rewrite map_length, seq_length|].
    rewrite Forall_forall in SC, PR. destruct (SC c' Hc) as (P1 & _ & NZ & _). destruct c' as [[k rays] pts]. destruct P1 as (_ & _ & P1 & _). rewrite Forall_forall in P1. apply (lift_nonzero n eqs ineqs part basis rows CO); [exact (P1 r' Hr)|exact (NZ r' Hr)].
  - apply stands_points; [apply Forall_forall; intros p Hp; apply PT in Hp; tauto|exact ST|]. intros X DX. pose proof (pulled_domain m n AA b X cs LA WA PR DX) as DP.
    rewrite (project_value m n AA b X cs (proj1 DX) LA Lb WA PR), (VA ys IP _ DP), <- EY. symmetry. apply (project_points m); [exact (proj1 DX)|exact LA|exact Lb|exact WA|exact (points_len _ _ _ IP)].
Qed.
Print Assumptions generating_function_equations_partial.
(** It fails (a) for dilations: the particular solution is not dilated.  For x = 1, 0 <= y <= 1
    dilated by 2, that is x = 2, 0 <= y <= 2, the points written have x = 1.
    (b) With cones of index greater than 1 the program stops at an assertion. *)
Definition strip_rows : list (list Z) := [[0;1];[2;-1]].
Definition strip_vertices : list rvec := [mkRV [0] [1] false [] 0; mkRV [2] [1] false [] 0].
Definition text_value (t : outcome chars) (x : nat -> Q) : option Q := match t with Ok s => match reads s with Some e => option_map Qred (mvalue x e) | None => None end | Err _ => None end.
Theorem generating_function_equations_refuted :
  (exists part basis rows, preprocess 50 [[1;-1;0]] [[0;0;1];[1;0;-1]] 2 2 = Ok (Reduced part basis rows) /\ map (firstn 2) rows = strip_rows /\
   text_value (generating_function (sample_params DualDecomposition) 1 (Some (lifting 2 part basis)) strip_rows strip_vertices) (fun k => nth k [2; 3]%Q 0%Q) = Some 26%Q /\
   (forall x, sat_eqs 2 2 [[1;-1;0]] (fun k => nth k x 0) /\ sat_ineqs 2 2 [[0;0;1];[1;0;-1]] (fun k => nth k x 0) /\ length x = 2%nat <-> In x [[2;0];[2;1];[2;2]]) /\
   Qeq (point_sum (fun k => nth k [2; 3]%Q 0%Q) [[2;0];[2;1];[2;2]]) 52) /\
  generating_function (mkParams 40 200 1 DualDecomposition LatteLLL 100 prim_omega cramer_ker xgcd_euclid sample_tri) 2 (Some (lifting 2 [0;0] [[1;0];[0;1]])) (triangle_rows 7) triangle_vertices = Err AssertFail.
Proof.
  split; [|vm_compute; reflexivity]. exists [1;0], [[0;1]], [[0;1;0];[2;-1;0]]. split; [vm_compute; reflexivity|]. split; [reflexivity|]. split; [vm_compute; reflexivity|]. split; [|vm_compute; reflexivity].
  intros x. unfold sat_eqs, sat_ineqs, row_value. split.
  - intros (E & I & L). destruct x as [|a [|b [|? ?]]]; try discriminate. specialize (E _ (or_introl eq_refl)). pose proof (I _ (or_introl eq_refl)) as I1. pose proof (I _ (or_intror (or_introl eq_refl))) as I2. cbn -[Z.mul Z.add] in E, I1, I2.
    assert (a = 2) as -> by lia. assert (B : b = 0 \/ b = 1 \/ b = 2) by lia. destruct B as [->|[->| ->]]; cbn; tauto.
  - intros [<-|[<-|[<-|[]]]]; (split; [intros r [<-|[]]; reflexivity|]; split; [|reflexivity]; intros r [<-|[<-|[]]]; vm_compute; discriminate).
Qed.
Print Assumptions generating_function_equations_refuted.

(** The triangle: the hypotheses hold (triangle_input, count_contracts_can_be_met), and the
    value of the text at (2, 3). *)
Example triangle_text :
  text_value (generating_function (sample_params DualDecomposition) 2 None (triangle_rows 7) triangle_vertices) (fun k => nth k [2; 3]%Q 0%Q) = Some 45%Q /\
  text_value (generating_function (sample_params IrrationalPrimalDecomposition) 2 None (triangle_rows 7) triangle_vertices) (fun k => nth k [2; 3]%Q 0%Q) = Some 45%Q /\
  Qeq (point_sum (fun k => nth k [2; 3]%Q 0%Q) triangle_solutions) 45.
Proof. split; [vm_compute; reflexivity|]. split; [vm_compute; reflexivity|]. vm_compute. reflexivity. Qed.
(** The quadrant, not bounded: 1/((1-x[1])*(1-x[0])). *)
Definition quadrant_rows : list (list Z) := [[0;1;0];[0;0;1]].
Example quadrant_text : (forall mode, polytope_input (sample_params mode) 2 quadrant_rows [point2 0 0]) /\
  generating_function (sample_params DualDecomposition) 2 None quadrant_rows [point2 0 0] = Ok (lit "1/((1-x[1])*(1-x[0]))" ++ newline)%list.
Proof.
  split; [|vm_compute; reflexivity]. intros mode. split; [lia|]. split; [|split; [|split]].
  - intros c [<-|[<-|[]]]; reflexivity.
  - intros v [<-|[]]; apply pair_usable; lia.
  - split; [|split].
    + intros v [<-|[]]. split.
      * intros r [<-|[<-|[]]]; vm_compute; discriminate.
      * intros y Hy. pose proof (Hy [0;1;0] ltac:(now left) ltac:(vm_compute; reflexivity)) as Y1. pose proof (Hy [0;0;1] ltac:(right; now left) ltac:(vm_compute; reflexivity)) as Y2. cbn [sumq nth] in Y1, Y2. unfold inject_Z in *. intros k Hk. destruct k as [|[|k]]; [ | |lia]; lra.
    + intros v [V1 V2]. exists (coord (point2 0 0)). split; [now left|].
      pose proof (V1 [0;1;0] ltac:(now left)) as P1. pose proof (V1 [0;0;1] ltac:(right; now left)) as P2. rewrite slack2 in P1, P2. unfold inject_Z in *.
      assert (G : forall y : nat -> Q, ((v 0%nat == 0 -> y 0%nat == 0) -> (v 1%nat == 0 -> y 1%nat == 0) -> y 0%nat == 0 /\ y 1%nat == 0)%Q).
      { intros y Y1 Y2. cut (forall k, (k < 2)%nat -> (y k == 0)%Q); [intros Z; split; apply Z; lia|]. apply V2. intros r [<-|[<-|[]]] T; rewrite slack2 in T; cbn [sumq nth]; unfold inject_Z in *; [rewrite (Y1 ltac:(lra)); ring|rewrite (Y2 ltac:(lra)); ring]. }
      assert (A : (v 0%nat == 0)%Q). { destruct (Qeq_dec (v 0%nat) 0) as [A|A]; [exact A|exfalso]. destruct (G (fun k => match k with O => 1 | _ => 0 end)%Q ltac:(tauto) ltac:(reflexivity)) as [X _]; discriminate X. }
      assert (B : (v 1%nat == 0)%Q). { destruct (Qeq_dec (v 1%nat) 0) as [B|B]; [exact B|exfalso]. destruct (G (fun k => match k with O => 0 | _ => 1 end)%Q ltac:(reflexivity) ltac:(tauto)) as [_ X]; discriminate X. }
      intros k Hk. destruct k as [|[|k]]; [exact A|exact B|lia].
    + intros i j Hij Hj. cbn [length map] in Hj. lia.
  - intros v [<-|[]]; triangle_tri.
Qed.
Lemma one_usable a c : c <> 0 -> (exists Pr k, (Pr = nonzero \/ Pr = positive) /\ reachable Pr k (mkRV [a] [c] false [] 0)) /\ dim (mkRV [a] [c] false [] 0) = 1%nat.
Proof.
  intros Hc. split; [|reflexivity]. exists nonzero, (CPair [a] [c]). split; [now left|]. split; [cbn; split; [reflexivity|]; repeat constructor; assumption|]. exists (mkRV [a] [c] false [] 0), []. split; [reflexivity|]. split; [constructor|reflexivity].
Qed.
(** x + y + z = 6, x = 1 + y, x, y, z >= 0. *)
Definition line_vertices : list rvec := [mkRV [0] [1] false [] 0; mkRV [5] [2] false [] 0].
Example line_text :
  corresponds 3 1 [[6;-1;-1;-1];[1;-1;1;0]] [[0;1;0;0];[0;0;1;0];[0;0;0;1]] [1;0;5] [[1;1;-2]] [[1;1;0];[0;1;0];[5;-2;0]] /\
  (forall mode, polytope_input (sample_params mode) 1 (map (firstn 2) [[1;1;0];[0;1;0];[5;-2;0]]) line_vertices) /\
  (forall x, In x [[1;0;5];[2;1;3];[3;2;1]] <-> length x = 3%nat /\ sat_eqs 3 1 [[6;-1;-1;-1];[1;-1;1;0]] (fun k => nth k x 0) /\ sat_ineqs 3 1 [[0;1;0;0];[0;0;1;0];[0;0;0;1]] (fun k => nth k x 0)) /\
  text_value (generating_function (sample_params DualDecomposition) 1 (Some (lifting 3 [1;0;5] [[1;1;-2]])) [[1;1];[0;1];[5;-2]] line_vertices) (fun k => nth k [2; 3; 5]%Q 0%Q) = Some 8110%Q /\
  Qeq (point_sum (fun k => nth k [2; 3; 5]%Q 0%Q) [[1;0;5];[2;1;3];[3;2;1]]) 8110.
Proof.
  split; [|split; [|split; [|split; vm_compute; reflexivity]]].
  - unfold corresponds, sat_eqs, sat_ineqs, affine_point, row_value, combination. split; [|split; [|split]].
    + intros y e [<-|[<-|[]]]; cbn -[Z.mul Z.add]; lia.
    + intros x H. pose proof (H _ (or_introl eq_refl)) as H1. pose proof (H _ (or_intror (or_introl eq_refl))) as H2. cbn -[Z.mul Z.add] in H1, H2. exists (fun _ => x 1%nat). intros i Hi. destruct i as [|[|[|i]]]; cbn -[Z.mul Z.add]; lia.
    + intros y y' H k Hk. specialize (H 1%nat ltac:(lia)). cbn -[Z.mul Z.add] in H, Hk. assert (k = 0%nat) as -> by lia. lia.
    + intros y. split; intros H; pose proof (H _ (or_introl eq_refl)) as H1; pose proof (H _ (or_intror (or_introl eq_refl))) as H2; pose proof (H _ (or_intror (or_intror (or_introl eq_refl)))) as H3; cbn -[Z.mul Z.add] in H1, H2, H3; intros e [<-|[<-|[<-|[]]]]; cbn -[Z.mul Z.add]; lia.
  - intros mode. change (map (firstn 2) [[1;1;0];[0;1;0];[5;-2;0]]) with [[1;1];[0;1];[5;-2]]. split; [lia|]. split; [|split; [|split]].
    + intros c [<-|[<-|[<-|[]]]]; reflexivity.
    + intros v [<-|[<-|[]]]; apply one_usable; lia.
    + assert (S1 : forall b a x, (slack 1 [b; a] x == inject_Z b + x 0%nat * inject_Z a)%Q) by (intros; unfold slack; cbn [sumq nth]; ring). split; [|split].
      * intros v Hv. split.
        -- destruct Hv as [<-|[<-|[]]]; intros r [<-|[<-|[<-|[]]]]; vm_compute; discriminate.
        -- intros y Hy k Hk. assert (k = 0%nat) as -> by lia.
           destruct Hv as [<-|[<-|[]]]; [pose proof (Hy [0;1] ltac:(right; now left) ltac:(vm_compute; reflexivity)) as Y|pose proof (Hy [5;-2] ltac:(right; right; now left) ltac:(vm_compute; reflexivity)) as Y]; cbn [sumq nth] in Y; unfold inject_Z in Y; lra.
      * intros v [V1 V2]. pose proof (V1 [0;1] ltac:(right; now left)) as P1. pose proof (V1 [5;-2] ltac:(right; right; now left)) as P2. rewrite S1 in P1, P2. unfold inject_Z in P1, P2.
        destruct (Qeq_dec (v 0%nat) 0) as [A|A]; [exists (coord (mkRV [0] [1] false [] 0)); split; [now left|]; intros k Hk; assert (k = 0%nat) as -> by lia; exact A|].
        destruct (Qeq_dec (v 0%nat) (5 # 2)) as [B|B]; [exists (coord (mkRV [5] [2] false [] 0)); split; [right; now left|]; intros k Hk; assert (k = 0%nat) as -> by lia; exact B|].
        exfalso. assert (X : (1 == 0)%Q); [|discriminate X]. apply (V2 (fun _ => 1%Q)) with (k := 0%nat); [|lia]. intros r [<-|[<-|[<-|[]]]] T; rewrite S1 in T; unfold inject_Z in T; exfalso; lra.
      * intros i j Hij Hj. cbn [length map line_vertices] in Hj. assert (i = 0%nat) as -> by lia. assert (j = 1%nat) as -> by lia. intros E. specialize (E 0%nat ltac:(lia)). discriminate E.
    + intros v [<-|[<-|[]]]; (match goal with |- triangulates 1 ?V _ => let V' := eval vm_compute in V in change V with V' end; cbn [sample_params q_tri sample_tri]; (apply simplicial_triangulates; [split; [reflexivity|repeat constructor]|apply det_indep; vm_compute; discriminate])).
  - intros x. unfold sat_eqs, sat_ineqs, row_value. split.
    + intros [<-|[<-|[<-|[]]]]; (split; [reflexivity|]; split; [intros r [<-|[<-|[]]]; reflexivity|intros r [<-|[<-|[<-|[]]]]; vm_compute; discriminate]).
    + intros (L & E & H). destruct x as [|a [|b [|c [|? ?]]]]; try discriminate. pose proof (E _ (or_introl eq_refl)) as E1. pose proof (E _ (or_intror (or_introl eq_refl))) as E2. pose proof (H _ (or_introl eq_refl)) as H1. pose proof (H _ (or_intror (or_introl eq_refl))) as H2. pose proof (H _ (or_intror (or_intror (or_introl eq_refl)))) as H3. cbn -[Z.mul Z.add] in E1, E2, H1, H2, H3.
      assert (a = 1 + b) as -> by lia. assert (c = 5 - 2 * b) as -> by lia. assert (B : b = 0 \/ b = 1 \/ b = 2) by lia. destruct B as [->|[->| ->]]; cbn; tauto.
Qed.
