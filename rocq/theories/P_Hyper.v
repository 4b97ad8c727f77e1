(** Property theorems about hypersimplices, Kneser graphs and edge polytopes (C70, C71). *)
From Verif Require Import Common Text Graph GraphSpec GraphProofs Hyper HyperSpec HyperProofs HyperProofs2.
Open Scope Z_scope.

(** C70.  The points of the hypersimplex are the 0/1 vectors with k ones, each once, with
    a 1 in front. *)
Theorem hypersimplex_points : forall n k, (1 <= k <= n)%nat ->
  exists l, generate_points n k = Ok (map (cons 1) l) /\ NoDup l /\ Z.of_nat (length l) = binomial n k /\
    forall v, In v l <-> zero_one n k v.
Proof.
  intros n k H. exists (full k (n - k)). split; [unfold generate_points; rewrite all_points_ok by exact H; reflexivity|].
  split; [apply full_nodup|]. split; [rewrite full_binomial; f_equal; lia|]. intros v. rewrite full_spec. replace (k + (n - k))%nat with n by lia. reflexivity.
Qed.
Print Assumptions hypersimplex_points.
Example hypersimplex_sample : generate_points 4 2 = Ok [[1;1;1;0;0]; [1;1;0;1;0]; [1;1;0;0;1]; [1;0;1;1;0]; [1;0;1;0;1]; [1;0;0;1;1]].
Proof. vm_compute. reflexivity. Qed.
(** Not for zero ones: a point with a one appears; nor for more ones than entries. *)
Theorem hypersimplex_refuted :
  (exists l v, generate_points 2 0 = Ok (map (cons 1) l) /\ In v l /\ ~ zero_one 2 0 v) /\
  (exists l v, generate_points 2 3 = Ok (map (cons 1) l) /\ In v l /\ ~ zero_one 2 3 v).
Proof.
  split.
  - exists [[0; 0]; [0; 1]], [0; 1]. split; [vm_compute; reflexivity|]. split; [right; left; reflexivity|]. intros (_&_&E). vm_compute in E. discriminate.
  - exists [[1; 1; 1]], [1; 1; 1]. split; [vm_compute; reflexivity|]. split; [left; reflexivity|]. intros (E&_). vm_compute in E. discriminate.
Qed.
Print Assumptions hypersimplex_refuted.

(** C70.  The Kneser graph: its vertices are the k-element subsets, numbered like the
    points of the hypersimplex, and its edges join the disjoint ones. *)
Theorem kneser_graph : forall g n k, (1 <= k)%nat -> Z.of_nat k <= (Z.of_nat n + 1) / 2 -> binomial n k <= 2147483647 ->
  exists l g', generate_points n k = Ok (map (cons 1) l) /\ make_kneser g n k = Ok g' /\
    simple (binomial n k) g' /\ order g' = length l /\
    forall a b, adjacent g' a b <-> (a < length l)%nat /\ (b < length l)%nat /\ a <> b /\ no_common (nth a l []) (nth b l []).
Proof.
  intros g n k H1 H2 H3. destruct (kneser_ok g n k H1 H2 H3) as (l&g'&A&B&C). exists l, g'. split; [unfold generate_points; rewrite A; reflexivity|]. split; [exact B|exact C].
Qed.
Print Assumptions kneser_graph.
Example kneser_sample : exists g, make_kneser new_graph 5 2 = Ok g /\ numVertex g = 10 /\ size g = 15%nat.
Proof. eexists. split; [vm_compute; reflexivity|]. split; vm_compute; reflexivity. Qed.
(** Outside this range: with empty subsets the graph has an edge to a vertex that does not
    exist, or the list of edges is left; with large subsets the object keeps what it held. *)
Theorem kneser_refuted :
  (exists g, make_kneser new_graph 2 0 = Ok g /\ ~ stored g) /\
  make_kneser new_graph 3 0 = Err OutOfBounds /\
  (exists g g', make_kneser new_graph 5 2 = Ok g /\ make_kneser g 5 4 = Ok g' /\ numVertex g' <> binomial 5 4).
Proof.
  split; [|split].
  - eexists. split; [vm_compute; reflexivity|]. intros (_&S0). specialize (S0 0%nat ltac:(vm_compute; lia)). destruct S0 as (_&F). vm_compute in F. apply Forall_inv in F. lia.
  - vm_compute. reflexivity.
  - eexists. eexists. split; [vm_compute; reflexivity|]. split; [vm_compute; reflexivity|]. vm_compute. discriminate.
Qed.
Print Assumptions kneser_refuted.

(** C71.  The edge polytope of a simple graph has one point e_a + e_b per edge, with a 1
    in front. *)
Theorem edge_polytope_points : forall n g, simple n g ->
  exists l, edge_polytope (edges g) = Ok l /\ length l = size g /\ NoDup l /\
    forall v, In v l <-> exists a b, (a < b)%nat /\ adjacent g a b /\ v = 1 :: two_entries (order g) a b 1 1.
Proof. exact edge_polytope_ok. Qed.
Print Assumptions edge_polytope_points.
(** C71.  The symmetric edge polytope has e_a - e_b and e_b - e_a for every edge. *)
Theorem symmetric_edge_polytope_points : forall n g, simple n g ->
  exists l, symmetric_edge_polytope (edges g) = Ok l /\ length l = (2 * size g)%nat /\ NoDup l /\
    forall v, In v l <-> exists a b, adjacent g a b /\ v = 1 :: two_entries (order g) a b 1 (-1).
Proof. exact symmetric_ok. Qed.
Print Assumptions symmetric_edge_polytope_points.
Example edge_polytope_sample : exists g, make_circle new_graph 3 = Ok g /\ simple 3 g /\
  edge_polytope (edges g) = Ok [[1;1;1;0]; [1;1;0;1]; [1;0;1;1]] /\
  symmetric_edge_polytope (edges g) = Ok [[1;1;-1;0]; [1;-1;1;0]; [1;1;0;-1]; [1;-1;0;1]; [1;0;1;-1]; [1;0;-1;1]].
Proof.
  destruct (build_ok 3 (circle_pushes 3)) as (g&B&S1&_); [lia|vm_compute; repeat constructor; cbn; intuition discriminate|vm_compute; repeat constructor|].
  exists g. vm_compute in B. injection B as <-. split; [vm_compute; reflexivity|]. split; [exact S1|]. split; vm_compute; reflexivity.
Qed.
(** An edge from a vertex to itself, which the typed-in graphs can have, gives e_a only,
    and -e_a counted as e_a - e_a. *)
Theorem loop_point_refuted : exists e, edge_polytope e = Ok [[1; 1]] /\ symmetric_edge_polytope e = Ok [[1; -1]; [1; 1]].
Proof. exists [[0%nat]]. split; vm_compute; reflexivity. Qed.
Print Assumptions loop_point_refuted.
