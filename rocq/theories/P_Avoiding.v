(** Property theorems about short vectors that avoid a hyperplane (C96). *)
From Verif Require Import Common ZMat Hermite HermiteProofs Det DetProofs RatVec RatVecSpec Piped PipedSpec PipedProofs PipedProofs4 Irrational Barvinok BarvinokSpec BarvinokProofs2 BarvinokProofs3 BarvinokProofs4 Omega OmegaSpec OmegaProofs OmegaProofs2 OmegaProofs4 OmegaProofs5 OmegaProofs6 OmegaProofs7 Avoiding AvoidingProofs.
Open Scope Z_scope.

(** The vector z is off the hyperplane x_n = 0. *)
Definition off_last (n : nat) (z : list Z) : Prop := nth (n - 1) z 0 <> 0.
(** A cone with independent rays, its matrix of facet normals, an LLL that returns a basis. *)
Definition avoid_setting (n : nat) (rays Dual : list (list Z)) (lll : list (list Z) -> list (list Z) * list (list Z)) : Prop :=
  (0 < n)%nat /\ n_vectors n rays /\ lin_indep n rays /\ (exists c, det_and_facets n rays = Ok c /\ facet_matrix c = Ok Dual) /\ lll_contract lll.
Lemma unpack n rays Dual lll : avoid_setting n rays Dual lll -> (0 < n)%nat /\ n_vectors n rays /\ lin_indep n rays /\ dual_matrix n rays Dual /\ new_basis n (neg_transpose n Dual) (lll (neg_transpose n Dual)).
Proof.
  intros (Hn & NV & LI & (c & E & EM) & LC). destruct (dual_exists n rays NV LI) as (c' & M & E' & _ & _ & EM' & DM). rewrite E in E'. injection E' as <-. rewrite EM in EM'. injection EM' as <-.
  split; [exact Hn|]. split; [exact NV|]. split; [exact LI|]. split; [exact DM|]. apply LC; [apply neg_transpose_vectors|exact (LL_det n rays Dual LI DM)].
Qed.

(** The assertion never fails: there is a vector, it is off the hyperplane, and its entries
    have no common divisor. *)
Theorem avoiding_vector_exists : forall n rays Dual lll, avoid_setting n rays Dual lll ->
  exists z, compute_avoiding lll Dual n = Ok z /\ length z = n /\ primitive n z /\ off_last n z.
Proof.
  intros n rays Dual lll S. destruct (unpack _ _ _ _ S) as (Hn & NV & LI & DM & LC). destruct (compute_avoiding_ok n Hn Dual lll LC) as (i & Hi & E & NZ & _). eexists. split; [exact E|].
  split; [now apply (U_row n Hn rays Dual lll LC)|]. split; [|exact NZ]. now apply (row_primitive n Dual lll LC).
Qed.
Print Assumptions avoiding_vector_exists.

(** It is one of the rows of the transformation matrix, and the best of those that are off the
    hyperplane: none of them gives a smaller largest determinant. *)
Theorem avoiding_choice_best : forall n rays Dual lll z, avoid_setting n rays Dual lll -> compute_avoiding lll Dual n = Ok z ->
  let U := snd (lll (neg_transpose n Dual)) in
  (exists i, (i < n)%nat /\ z = nth i U []) /\
  forall j b, (j < n)%nat -> 0 <= b -> off_last n (nth j U []) -> dets_within n rays (nth j U []) b -> dets_within n rays z b.
Proof.
  intros n rays Dual lll z S Ez U. destruct (unpack _ _ _ _ S) as (Hn & NV & LI & DM & LC). destruct (compute_avoiding_ok n Hn Dual lll LC) as (i & Hi & E & NZ & BEST). rewrite Ez in E. injection E as ->.
  split; [now exists i|]. intros j b Hj Hb OL. specialize (BEST j Hj OL).
  rewrite !(dets_norm n Hn rays Dual NV LI DM) by (auto; apply (U_row n Hn rays Dual lll LC); auto). unfold U.
  rewrite <- (row_norm n Hn rays Dual lll LC j Hj), <- (row_norm n Hn rays Dual lll LC i Hi). lia.
Qed.
Print Assumptions avoiding_choice_best.

(** As choice function for decompositions it has the properties C29, C30 ask for. *)
Theorem avoiding_vector_contracts : forall lll, lll_contract lll ->
  omega_contract (avoiding_vector lll) /\ primitive_choice (avoiding_vector lll) /\
  (forall n l rays, (0 < n)%nat -> n_vectors n rays -> lin_indep n rays -> off_last n (avoiding_vector lll l rays)) /\
  forall n rays Dual l, avoid_setting n rays Dual lll -> compute_avoiding lll Dual n = Ok (avoiding_vector lll l rays).
Proof.
  intros lll LC. split; [|split; [|split]].
  - intros n l rays Hn NV LI. destruct (avoiding_vector_ok n Hn rays NV LI lll LC l) as (A & B & C). split; [exact A|]. exists (n - 1)%nat. split; [lia|exact C].
  - intros n l rays Hn NV LI. now destruct (avoiding_vector_ok n Hn rays NV LI lll LC l) as (A & B & C).
  - intros n l rays Hn NV LI. now destruct (avoiding_vector_ok n Hn rays NV LI lll LC l) as (A & B & C).
  - intros n rays Dual l S. destruct (unpack _ _ _ _ S) as (Hn & NV & LI & DM & LC'). rewrite (avoiding_vector_eq n Hn rays NV LI lll Dual l DM). destruct (compute_avoiding_ok n Hn Dual lll LC') as (i & Hi & E & _). now rewrite E.
Qed.
Print Assumptions avoiding_vector_contracts.

(** Every ray of every cone delivered by the decomposition is one of the rays given, or off
    the hyperplane (in dual decomposition, where the polar cones are delivered, this is about
    the facets of the cones delivered). *)
Theorem decomposition_avoids : forall fuel mode sv lll ker max_det n v cons coef rays c st r st',
  (0 < n)%nat -> n_vectors n rays -> lin_indep n rays -> det_and_facets n rays = Ok c -> lll_contract lll -> relation_contract ker ->
  dfs fuel mode sv (avoiding_vector lll) ker max_det n v cons (mkB coef c) st = Ok (r, st') ->
  exists new, delivered st' = delivered st ++ new /\
  forall d, In d new -> forall ray, In ray (match mode with DualDecomposition => s_facets (b_cone d) | _ => s_rays (b_cone d) end) -> In ray rays \/ off_last n ray.
Proof.
  intros fuel mode sv lll ker max_det n v cons coef rays c st r st' Hn NV LI E LC KC ED. pose proof (indep_det n rays LI) as D0. destruct (det_and_facets_full n rays NV D0) as (c' & E' & FC & ER). rewrite E in E'. injection E' as <-.
  destruct (avoiding_vector_contracts lll LC) as (OC & _ & OFF & _).
  assert (PO : forall l rs, n_vectors n rs -> lin_indep n rs -> (fun ray => In ray rays \/ off_last n ray) (avoiding_vector lll l rs) /\ (fun ray => In ray rays \/ off_last n ray) (map Z.opp (avoiding_vector lll l rs))).
  { intros l rs NVs LIs. pose proof (OFF n l rs Hn NVs LIs) as X. split; right; [exact X|]. unfold off_last in *. change 0 with (- 0). rewrite map_nth. lia. }
  destruct (dfs_rays mode sv (avoiding_vector lll) ker max_det n v cons Hn KC OC _ PO fuel (mkB coef c) st r st' FC) as (new & EN & FN); [cbn [b_cone]; rewrite ER; apply Forall_forall; intros x Hx; now left|exact ED|].
  exists new. split; [exact EN|]. intros d Hd ray Hr. rewrite Forall_forall in FN. specialize (FN d Hd). rewrite Forall_forall in FN. apply FN. unfold inner. exact Hr.
Qed.
Print Assumptions decomposition_avoids.

(** Unlike the usual choice, this one need not lower the index, however large it is, although
    other vectors do: for the cone with rays (1,0,0), (1,D,0), (0,0,1) no vector off the
    hyperplane lowers it, so that the cone of index 5 is delivered as it is although unimodular
    cones were asked for, and for index 200001 the program exits. *)
Definition wedge (D : Z) : list (list Z) := [[1;0;0];[1;D;0];[0;0;1]].
Definition wedge_cone (D : Z) : scone := mkCone D (- D) (wedge D) [[-D;1;0];[0;-1;0];[0;0;-1]] [D;D;1].
Definition empty_state : bstate := mkSt [] 0 0 0 0 0.
Lemma wedge_det D a b c : det 3 (ent (with_ray (wedge D) 2 [a;b;c])) = D * c.
Proof. unfold wedge, with_ray. cbn [firstn skipn app]. cbv -[Z.add Z.mul Z.opp Z.sub]. ring. Qed.
Lemma len3 (z : list Z) : length z = 3%nat -> exists a b c, z = [a;b;c].
Proof. destruct z as [|a [|b [|c [|]]]]; try discriminate. intros _. now exists a, b, c. Qed.
Lemma wedge_never D z : length z = 3%nat -> off_last 3 z -> 0 < D -> ~ lowers 3 (wedge D) z.
Proof.
  intros Lz O HD H. destruct (len3 z Lz) as (a & b & c & ->). unfold off_last in O. cbn in O. specialize (H 2%nat ltac:(lia)). change (Z.abs (det 3 (ent (with_ray (wedge D) 2 [a; b; c]))) < Z.abs (det 3 (vat (wedge D)))) in H.
  rewrite wedge_det in H. assert (E : det 3 (vat (wedge D)) = D) by (unfold wedge; cbv -[Z.add Z.mul Z.opp Z.sub]; ring). rewrite E in H. nia.
Qed.
Lemma wedge_step lll ker D : lll_contract lll -> relation_contract ker -> 0 < D -> det_and_facets 3 (wedge D) = Ok (wedge_cone D) -> (exists M, facet_matrix (wedge_cone D) = Ok M) ->
  step SubspaceAvoidingLLL (avoiding_vector lll) ker 3 (mkB 1 (wedge_cone D)) = Ok None.
Proof.
  intros LC KC HD E (M & EM). assert (D0 : det 3 (ent (wedge D)) <> 0) by (intros X; assert (E0 : det 3 (ent (wedge D)) = D) by (unfold wedge; cbv -[Z.add Z.mul Z.opp Z.sub]; ring); lia).
  assert (NV : n_vectors 3 (wedge D)) by (split; [reflexivity|repeat constructor]). assert (LI : lin_indep 3 (wedge D)) by now apply det_indep.
  destruct (avoiding_vector_contracts lll LC) as (OC & _ & OFF & _). pose proof (OFF 3%nat 0%nat _ ltac:(lia) NV LI) as O1. destruct (OC 3%nat 0%nat _ ltac:(lia) NV LI) as [L1 _].
  unfold step. cbn [b_cone b_coef]. cbv zeta. rewrite EM. cbn [bind]. change (s_rays (wedge_cone D)) with (wedge D). set (z := check_omega ker 3 (wedge D) (avoiding_vector lll 0 (wedge D))).
  assert (Hz : length z = 3%nat /\ off_last 3 z).
  { unfold z, check_omega. cbv zeta. destruct (_ || _); [|now split]. split; [now rewrite map_length|]. unfold off_last in *. change 0 with (- 0). rewrite map_nth. lia. }
  destruct Hz as [Lz Oz]. destruct (len3 z Lz) as (a & b & c & Ez). assert (F : dets_decrease (s_det (wedge_cone D)) (replaced_dets 3 (wedge D) z) = false).
  { unfold dets_decrease, replaced_dets. cbn [seq map forallb]. rewrite Ez. replace (replace_ray (wedge D) 2 [a;b;c]) with (with_ray (wedge D) 2 [a;b;c]) by reflexivity. rewrite wedge_det. rewrite Ez in Oz. unfold off_last in Oz. cbn in Oz. cbn [wedge_cone s_det]. rewrite (proj2 (Z.ltb_ge (Z.abs (D * c)) (Z.abs D))) by nia. now rewrite !andb_false_r. }
  rewrite F. reflexivity.
Qed.
Theorem avoiding_lowers_refuted : forall lll ker cons v, lll_contract lll -> relation_contract ker ->
  (forall D, 0 < D -> forall l, ~ lowers 3 (wedge D) (avoiding_vector lll l (wedge D))) /\ lowers 3 (wedge 5) [1;1;0] /\ lowers 3 (wedge 200001) [1;1;0] /\
  (exists c st', det_and_facets 3 (wedge 5) = Ok c /\ dfs 6 DualDecomposition SubspaceAvoidingLLL (avoiding_vector lll) ker 1 3 v cons (mkB 1 c) empty_state = Ok (cons [] (mkB 1 (swap_cone c)), st') /\ map (fun d => Z.abs (s_det (b_cone d))) (delivered st') = [5]) /\
  (exists c, det_and_facets 3 (wedge 200001) = Ok c /\ dfs 6 DualDecomposition SubspaceAvoidingLLL (avoiding_vector lll) ker 1 3 v cons (mkB 1 c) empty_state = Err Exited).
Proof.
  intros lll ker cons v LC KC. split; [|split; [|split; [|split]]].
  - intros D HD l. assert (D0 : det 3 (ent (wedge D)) <> 0) by (intros X; assert (E0 : det 3 (ent (wedge D)) = D) by (unfold wedge; cbv -[Z.add Z.mul Z.opp Z.sub]; ring); lia).
    assert (NV : n_vectors 3 (wedge D)) by (split; [reflexivity|repeat constructor]). assert (LI : lin_indep 3 (wedge D)) by now apply det_indep.
    destruct (avoiding_vector_contracts lll LC) as (OC & _ & OFF & _). apply wedge_never; [now destruct (OC 3%nat l _ ltac:(lia) NV LI)|apply OFF; auto; lia|exact HD].
  - intros i Hi. destruct i as [|[|[|i]]]; [vm_compute; reflexivity|vm_compute; reflexivity|vm_compute; reflexivity|lia].
  - intros i Hi. destruct i as [|[|[|i]]]; [vm_compute; reflexivity|vm_compute; reflexivity|vm_compute; reflexivity|lia].
  - assert (E : det_and_facets 3 (wedge 5) = Ok (wedge_cone 5)) by (vm_compute; reflexivity). exists (wedge_cone 5). eexists. split; [exact E|]. pose proof (wedge_step lll ker 5 LC KC ltac:(lia) E ltac:(eexists; vm_compute; reflexivity)) as ST.
    cbn [dfs]. cbv zeta. rewrite ST. split; [reflexivity|]. vm_compute. reflexivity.
  - assert (E : det_and_facets 3 (wedge 200001) = Ok (wedge_cone 200001)) by (vm_compute; reflexivity). exists (wedge_cone 200001). split; [exact E|]. pose proof (wedge_step lll ker 200001 LC KC ltac:(lia) E ltac:(eexists; vm_compute; reflexivity)) as ST.
    cbn [dfs]. cbv zeta. rewrite ST. reflexivity.
Qed.
Print Assumptions avoiding_lowers_refuted.

(** A cone of index 5 where the first row of the transformation matrix is on the hyperplane,
    so that the second one is chosen. *)
Definition no_lll (A : list (list Z)) : list (list Z) * list (list Z) := (A, map (fun i => unit_row (length A) i) (seq 0 (length A))).
Example avoid_setting_met : avoid_setting 2 [[1;2];[-2;1]] [[-1;-2];[2;-1]] some_lll /\ compute_avoiding no_lll [[-1;-2];[2;-1]] 2 = Ok [0;1] /\ lowers 2 [[1;2];[-2;1]] [0;1] /\ compute_omega no_lll some_solve [[-1;-2];[2;-1]] 2 0 0 = Ok [1;0].
Proof.
  split; [|split; [vm_compute; reflexivity|split; [|vm_compute; reflexivity]]].
  - split; [lia|]. split; [split; [reflexivity|repeat constructor]|]. split; [apply det_indep; vm_compute; discriminate|]. split; [eexists; split; [vm_compute; reflexivity|vm_compute; reflexivity]|]. exact some_lll_ok.
  - intros i Hi. destruct i as [|[|i]]; [vm_compute; reflexivity|vm_compute; reflexivity|lia].
Qed.
