(** C99: the interior vector that completes a triangulation of the boundary of a cone.
    Specification: BoundarySpec.v. *)
From Verif Require Import Common ZMat Hermite HermiteProofs Det DetProofs IntComb IntCombProofs Piped Boundary BoundarySpec BoundaryProofs BoundaryProofs2 BoundaryProofs3.
Open Scope Z_scope.

(** A vector that is found has n coordinates; the determinants are those of the cones; it lies in the hyperplane of a cone, or every
    facet of the completed cone has a normal with a last coordinate that is not 0. *)
Theorem interior_vector_avoids : forall LLL fuel fuel' n cones w dets, (0 < n)%nat -> lll_contract n LLL -> Forall (boundary_cone n) cones ->
  interior_vector LLL fuel fuel' n cones = Ok (w, dets) -> length w = n /\ dets = map (fun c => cone_det n c w) cones /\ Forall (fun c => avoids n c w) cones.
Proof.
  intros LLL fuel fuel' n cones w dets P C BC E. pose proof (interior_result LLL fuel fuel' n cones P C BC) as H. rewrite E in H. destruct H as (rank & U & a & multi & bs & _ & _ & _ & _ & W & D & A). split; [rewrite W; apply row_times_len|]. split; assumption.
Qed.
(** It is no zero vector if the transformation is not singular. *)
Theorem interior_vector_nonzero : forall LLL fuel fuel' n cones w dets, (0 < n)%nat -> lll_contract n LLL -> Forall (boundary_cone n) cones ->
  (forall alpha, length alpha = n -> let '(_, U, _) := LLL alpha in det n (ent U) <> 0) -> interior_vector LLL fuel fuel' n cones = Ok (w, dets) -> exists k, nth k w 0 <> 0.
Proof.
  intros LLL fuel fuel' n cones w dets P C BC NS E. pose proof (interior_result LLL fuel fuel' n cones P C BC) as H. rewrite E in H. destruct H as (rank & U & a & multi & bs & _ & EL & Lm & (y & Iy & Ny) & W & _). specialize (NS (alpha_matrix n bs) (proj1 (alpha_matrix_shape n bs))). rewrite EL in NS.
  destruct (some_nonzero n (fun k => nth k w 0)) as [(k & _ & Hk)|Z]; [eauto|]. exfalso. apply In_nth with (d := 0) in Iy. destruct Iy as (j & Hj & <-). apply Ny. assert (X : det n (ent U) * nth j multi 0 = 0); [|apply Z.mul_eq_0 in X; tauto].
  transitivity (zsum n (fun i => nth i multi 0 * zsum n (fun k => ent U i k * adj n (ent U) k j))).
  - rewrite (zsum_single n _ j); [|lia|].
    + pose proof (adj_r n (ent U) j j ltac:(lia) ltac:(lia)) as A. unfold mmul in A. rewrite A. unfold delta. rewrite Nat.eqb_refl. ring.
    + intros i Hi Ni. pose proof (adj_r n (ent U) i j Hi ltac:(lia)) as A. unfold mmul in A. rewrite A. unfold delta. destruct (Nat.eqb_spec i j); [contradiction|]. ring.
  - rewrite zsum_assoc. apply zsum_zero. intros k Hk. specialize (Z k Hk). cbn beta in Z. rewrite W, row_times_nth in Z by exact Hk. rewrite Z. ring.
Qed.
(** The only assertion that can fail is the one about the rank; else the search ends with a vector or goes on. *)
Theorem interior_vector_outcomes : forall LLL fuel fuel' n cones, (0 < n)%nat -> lll_contract n LLL -> Forall (boundary_cone n) cones ->
  (forall alpha, length alpha = n -> fst (fst (LLL alpha)) = n) -> (exists w dets, interior_vector LLL fuel fuel' n cones = Ok (w, dets)) \/ interior_vector LLL fuel fuel' n cones = Err OutOfFuel.
Proof.
  intros LLL fuel fuel' n cones P C BC R. pose proof (interior_result LLL fuel fuel' n cones P C BC) as H. destruct (interior_vector LLL fuel fuel' n cones) as [[w d]|e]; [left; eauto|].
  destruct e; auto; destruct H as (_ & bs & _ & N); exfalso; apply N, R; apply (alpha_matrix_shape n bs).
Qed.
(** For a unimodular reduction of full rank the search ends exactly if some vector that is not 0 has the property. *)
Theorem search_ends_iff : forall LLL n cones, (0 < n)%nat -> lll_contract n LLL -> Forall (boundary_cone n) cones ->
  (forall alpha, length alpha = n -> let '(rank, U, _) := LLL alpha in rank = n /\ Z.abs (det n (ent U)) = 1) ->
  (exists fuel fuel' p, interior_vector LLL fuel fuel' n cones = Ok p) <-> exists w, length w = n /\ (exists k, nth k w 0 <> 0) /\ Forall (fun c => avoids n c w) cones.
Proof.
  intros LLL n cones P C BC R. split.
  - intros (fuel & fuel' & [w d] & E). exists w. destruct (interior_vector_avoids LLL fuel fuel' n cones w d P C BC E) as (L & _ & A). split; [exact L|]. split; [|exact A]. apply (interior_vector_nonzero LLL fuel fuel' n cones w d P C BC); [|exact E]. intros alpha La. specialize (R alpha La). destruct (LLL alpha) as [[rank U] a']. destruct R as (_ & D). intros Z. rewrite Z in D. discriminate.
  - intros (w & L & NZ & A). exact (search_finds LLL n cones w P C BC R L NZ A).
Qed.
(** The assertion of alpha_basis fails exactly when the rays are not n - 1 independent ones. *)
Theorem alpha_basis_total : forall n rays, Forall (fun r => length r = n) rays -> (boundary_cone n rays <-> exists b, alpha_basis n rays = Ok b) /\ (~ boundary_cone n rays <-> alpha_basis n rays = Err AssertFail).
Proof.
  intros n rays F. assert (A : forall b, alpha_basis n rays = Ok b -> boundary_cone n rays).
  { intros b E. unfold alpha_basis in E. destruct (Nat.eqb_spec (S (length rays)) n) as [L|]; [|discriminate]. cbn [negb] in E. destruct (complete_rays n rays (seq 0 n)) as [M|] eqn:EM; [|discriminate]. destruct (complete_spec n rays _ M EM) as (D & e & Le & ->). split; [exact L|]. split; [exact F|]. exists e. split; assumption. }
  assert (B : (exists b, alpha_basis n rays = Ok b) \/ alpha_basis n rays = Err AssertFail).
  { unfold alpha_basis. destruct (negb _); [now right|]. destruct (complete_rays n rays (seq 0 n)); [left; eauto|now right]. }
  assert (H : boundary_cone n rays -> exists b, alpha_basis n rays = Ok b) by (intros BC; destruct (basis_ok n rays BC) as (b & E & _); eauto).
  split; split; auto.
  - intros (b & E). exact (A b E).
  - intros N. destruct B as [(b & E)|E]; [|exact E]. exfalso. exact (N (A b E)).
  - intros E BC. destruct (H BC) as (b & E'). congruence.
Qed.
(** The completed cones: the cones with a determinant that is not 0, from the last to the first, w in front of the rays. *)
Theorem complete_boundary_cones : forall LLL fuel fuel' n cones t, (0 < n)%nat -> lll_contract n LLL -> Forall (boundary_cone n) cones ->
  complete_boundary LLL fuel fuel' n cones = Ok t -> exists w, length w = n /\ t = rev (map (cons w) (filter (fun c => negb (cone_det n c w =? 0)) cones)) /\
  forall c, In c cones -> cone_det n c w <> 0 -> In (w :: c) t /\ forall l b, (l < length c)%nat -> facet_normal n c w l b -> nth (n - 1) b 0 <> 0.
Proof.
  intros LLL fuel fuel' n cones t P C BC E. unfold complete_boundary in E. destruct (interior_vector LLL fuel fuel' n cones) as [[w d]|] eqn:EI; [|discriminate]. cbn [bind] in E. injection E as <-. destruct (interior_vector_avoids LLL fuel fuel' n cones w d P C BC EI) as (L & -> & A). exists w. split; [exact L|]. rewrite completed_spec, app_nil_r. split; [reflexivity|].
  intros c Hc NZ. split.
  - rewrite <- in_rev. apply in_map. apply filter_In. split; [exact Hc|]. destruct (Z.eqb_spec (cone_det n c w) 0); [contradiction|reflexivity].
  - rewrite Forall_forall in A. destruct (A c Hc) as [Z|K]; [contradiction|exact K].
Qed.

(** A reduction that changes nothing. *)
Definition no_change (n : nat) (alpha : list (list Z)) : nat * list (list Z) * list (list Z) := (n, map (unit_row n) (seq 0 n), alpha).
Lemma ent_unit n i j : (i < n)%nat -> (j < n)%nat -> ent (map (unit_row n) (seq 0 n)) i j = delta i j.
Proof. intros Hi Hj. unfold ent. rewrite nth_map_seq by exact Hi. unfold unit_row. rewrite nth_map_seq by exact Hj. unfold delta. now rewrite Nat.eqb_sym. Qed.
Lemma no_change_contract n : lll_contract n (no_change n).
Proof.
  intros w alpha L F. unfold no_change. split; [now rewrite map_length, seq_length|]. split; [apply Forall_map, Forall_forall; intros; apply unit_len|]. split; [exact L|]. intros i j Hi Hj. rewrite (zsum_ext n _ (fun k => delta i k * ent alpha k j)) by (intros k Hk; now rewrite ent_unit). now rewrite zsum_delta.
Qed.
Lemma unit_times n x : length x = n -> row_times n n x (map (unit_row n) (seq 0 n)) = x.
Proof.
  intros L. apply nth_ext with (d := 0) (d' := 0); rewrite row_times_len; [now rewrite L|]. intros k Hk. rewrite row_times_nth by exact Hk. rewrite (zsum_ext n _ (fun i => delta k i * nth i x 0)); [now rewrite zsum_delta|]. intros i Hi. rewrite ent_unit by assumption. unfold delta. rewrite (Nat.eqb_sym i k). ring.
Qed.

(** The boundary of the cone over (1,1) and (-1,1). *)
Definition wedge : list (list (list Z)) := [[[1; 1]]; [[-1; 1]]].
Lemma wedge_boundary : Forall (boundary_cone 2) wedge.
Proof. repeat constructor; exists [1; 0]; (split; [reflexivity|vm_compute; discriminate]). Qed.
Example wedge_completed : complete_boundary (no_change 2) 5 50 2 wedge = Ok [[[-1; 0]; [-1; 1]]; [[-1; 0]; [1; 1]]].
Proof. vm_compute. reflexivity. Qed.
(** The hypotheses of the theorems hold for it, and so does the right side of the equivalence. *)
Example wedge_hypotheses : (forall alpha, length alpha = 2%nat -> let '(rank, U, _) := no_change 2 alpha in rank = 2%nat /\ Z.abs (det 2 (ent U)) = 1) /\
  exists w, length w = 2%nat /\ (exists k, nth k w 0 <> 0) /\ Forall (fun c => avoids 2 c w) wedge.
Proof.
  assert (H : forall alpha, length alpha = 2%nat -> let '(rank, U, _) := no_change 2 alpha in rank = 2%nat /\ Z.abs (det 2 (ent U)) = 1) by (intros; split; [reflexivity|vm_compute; reflexivity]). split; [exact H|].
  apply (search_ends_iff (no_change 2) 2 wedge ltac:(lia) (no_change_contract 2) wedge_boundary H). exists 5%nat, 50%nat, ([-1; 0], [1; 1]). vm_compute. reflexivity.
Qed.
(** The vector need not be an interior one: a completed cone need not lie in the cone over the rays. *)
Theorem completion_inside_refuted : ~ (forall LLL fuel fuel' n cones t c x, (0 < n)%nat -> lll_contract n LLL -> Forall (boundary_cone n) cones ->
  complete_boundary LLL fuel fuel' n cones = Ok t -> In c t -> length x = n -> spanned c x -> spanned (concat cones) x).
Proof.
  intros H. destruct (H (no_change 2) 5%nat 50%nat 2%nat wedge _ [[-1; 0]; [-1; 1]] [-1; 0] ltac:(lia) (no_change_contract 2) wedge_boundary wedge_completed (or_introl eq_refl) eq_refl) as (a & k & K & L & F & E).
  - exists [1; 0], 1. split; [lia|]. split; [reflexivity|]. split; [repeat constructor; lia|]. intros [|[|[|j]]]; reflexivity.
  - destruct a as [|a [|b [|]]]; try discriminate. apply Forall_cons_iff in F. destruct F as (A & F). apply Forall_cons_iff in F. destruct F as (B & _). pose proof (E 0%nat) as E0. pose proof (E 1%nat) as E1. cbn in E0, E1. lia.
Qed.

(** The boundary of the quadrant. *)
Definition quadrant : list (list (list Z)) := [[[0; 1]]; [[1; 0]]].
Lemma quadrant_boundary : Forall (boundary_cone 2) quadrant.
Proof. repeat apply Forall_cons; try apply Forall_nil; (split; [reflexivity|split; [repeat constructor|]]); [exists [1; 0]|exists [0; 1]]; (split; [reflexivity|vm_compute; discriminate]). Qed.
Example quadrant_completed : complete_boundary (no_change 2) 5 50 2 quadrant = Ok [[[-1; 0]; [0; 1]]].
Proof. vm_compute. reflexivity. Qed.
(** The facets given by the rays are not tested: a completed cone can have a facet that has a normal with last coordinate 0. *)
Theorem all_facets_avoid_refuted : ~ (forall LLL fuel fuel' n cones t c l b, (0 < n)%nat -> lll_contract n LLL -> Forall (boundary_cone n) cones ->
  complete_boundary LLL fuel fuel' n cones = Ok t -> In c t -> (l < length c)%nat -> length b = n -> (exists k, nth k b 0 <> 0) -> (forall i r, nth_error c i = Some r -> i <> l -> zdot b r = 0) -> nth (n - 1) b 0 <> 0).
Proof.
  intros H. apply (H (no_change 2) 5%nat 50%nat 2%nat quadrant _ [[-1; 0]; [0; 1]] 0%nat [1; 0] ltac:(lia) (no_change_contract 2) quadrant_boundary quadrant_completed (or_introl eq_refl)); [cbn; lia|reflexivity|exists 0%nat; discriminate| |reflexivity].
  intros [|[|i]] r R N; cbn in R; [congruence|injection R as <-; reflexivity|destruct i; discriminate].
Qed.

(** The boundary of the octant in three dimensions. *)
Definition octant : list (list (list Z)) := [[[1; 0; 0]; [0; 0; 1]]; [[0; 1; 0]; [0; 0; 1]]; [[1; 0; 0]; [0; 1; 0]]].
Lemma octant_boundary : Forall (boundary_cone 3) octant.
Proof. unfold octant. repeat apply Forall_cons; try apply Forall_nil; (split; [reflexivity|split; [repeat constructor|]]); [exists [0; 1; 0]|exists [1; 0; 0]|exists [0; 0; 1]]; (split; [reflexivity|vm_compute; discriminate]). Qed.
Lemma octant_stuck x y z : Forall (fun c => avoids 3 c [x; y; z]) octant -> x = 0 /\ y = 0 /\ z = 0.
Proof.
  intros H. unfold octant in H. apply Forall_cons_iff in H. destruct H as (H1 & H). apply Forall_cons_iff in H. destruct H as (H2 & H). apply Forall_cons_iff in H. destruct H as (H3 & _).
  assert (Y : y = 0).
  { destruct (Z.eq_dec y 0) as [|N]; [assumption|exfalso]. destruct H1 as [D|K]; [cbv - [Z.add Z.mul Z.sub Z.opp] in D; lia|]. apply (K 0%nat [y; - x; 0]); [cbn; lia| |reflexivity]. split; [reflexivity|]. split; [exists 0%nat; exact N|]. split; [unfold zdot; cbn; ring|]. intros [|[|i]] r R NI; cbn in R; [congruence|injection R as <-; unfold zdot; cbn; ring|destruct i; discriminate]. }
  assert (X : x = 0).
  { destruct (Z.eq_dec x 0) as [|N]; [assumption|exfalso]. destruct H2 as [D|K]; [cbv - [Z.add Z.mul Z.sub Z.opp] in D; lia|]. apply (K 0%nat [y; - x; 0]); [cbn; lia| |reflexivity]. split; [reflexivity|]. split; [exists 1%nat; cbn; lia|]. split; [unfold zdot; cbn; ring|]. intros [|[|i]] r R NI; cbn in R; [congruence|injection R as <-; unfold zdot; cbn; ring|destruct i; discriminate]. }
  split; [exact X|]. split; [exact Y|]. subst x y. destruct (Z.eq_dec z 0) as [|N]; [assumption|exfalso]. destruct H3 as [D|K]; [cbv - [Z.add Z.mul Z.sub Z.opp] in D; lia|]. apply (K 0%nat [1; 0; 0]); [cbn; lia| |reflexivity]. split; [reflexivity|]. split; [exists 0%nat; discriminate|]. split; [unfold zdot; cbn; ring|]. intros [|[|i]] r R NI; cbn in R; [congruence|injection R as <-; unfold zdot; cbn; ring|destruct i; discriminate].
Qed.
(** The search need not end: for the octant it goes on forever. *)
Theorem search_ends_refuted : exists LLL n cones, (0 < n)%nat /\ lll_contract n LLL /\ Forall (boundary_cone n) cones /\ forall fuel fuel', interior_vector LLL fuel fuel' n cones = Err OutOfFuel.
Proof.
  exists (no_change 3), 3%nat, octant. split; [lia|]. split; [apply no_change_contract|]. split; [apply octant_boundary|]. intros fuel fuel'.
  destruct (interior_vector_outcomes (no_change 3) fuel fuel' 3 octant ltac:(lia) (no_change_contract 3) octant_boundary (fun _ _ => eq_refl)) as [(w & d & E)|E]; [exfalso|exact E].
  pose proof (interior_result (no_change 3) fuel fuel' 3 octant ltac:(lia) (no_change_contract 3) octant_boundary) as H. rewrite E in H. destruct H as (rank & U & a & multi & bs & _ & EL & Lm & (y & Iy & Ny) & W & _ & A). unfold no_change in EL. injection EL as <- <- <-. rewrite unit_times in W by exact Lm. subst w.
  destruct multi as [|x1 [|x2 [|x3 [|]]]]; try discriminate. apply octant_stuck in A. destruct A as (-> & -> & ->). cbn in Iy. destruct Iy as [<-|[<-|[<-|[]]]]; exact (Ny eq_refl).
Qed.

(** The vector that is found for the wedge. *)
Example wedge_vector : interior_vector (no_change 2) 5 50 2 wedge = Ok ([-1; 0], [1; 1]).
Proof. vm_compute. reflexivity. Qed.

Print Assumptions interior_vector_avoids.
Print Assumptions interior_vector_nonzero.
Print Assumptions interior_vector_outcomes.
Print Assumptions alpha_basis_total.
Print Assumptions complete_boundary_cones.
Print Assumptions completion_inside_refuted.
Print Assumptions search_ends_refuted.
Print Assumptions all_facets_avoid_refuted.
Print Assumptions search_ends_iff.
