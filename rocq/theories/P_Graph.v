(** Property theorems about generated graphs (C39, C69). *)
From Coq Require Import Relations Permutation.
From Verif Require Import Common Text Graph GraphSpec GraphProofs GraphProofs2 GraphProofs3 GraphProofs4.
Open Scope Z_scope.

(** A fair stream exists, so the liveness theorems below are not vacuous: run through all
    pairs, one number more than needed per round. *)
Definition sweep (n p : nat) : nat :=
  let q := (p mod (2 * (n * n) + 1))%nat in if Nat.even q then (q / 2 / n)%nat else ((q / 2) mod n)%nat.
Example sweep_fair : forall n, n <> O -> fair (sweep n) n.
Proof.
  intros n Hn pos a b Ha Hb. exists (a * n + b + pos * (n * n))%nat. set (i := (a * n + b)%nat). set (P := (2 * (n * n) + 1)%nat).
  assert (Hi : (i < n * n)%nat) by (unfold i; nia).
  assert (E1 : ((pos + 2 * (i + pos * (n * n))) mod P = 2 * i)%nat).
  { replace (pos + 2 * (i + pos * (n * n)))%nat with (2 * i + pos * P)%nat by (unfold P; nia). rewrite Nat.mod_add by lia. apply Nat.mod_small. lia. }
  assert (E2 : ((pos + 2 * (i + pos * (n * n)) + 1) mod P = 2 * i + 1)%nat).
  { replace (pos + 2 * (i + pos * (n * n)) + 1)%nat with (2 * i + 1 + pos * P)%nat by (unfold P; nia). rewrite Nat.mod_add by lia. apply Nat.mod_small. lia. }
  unfold sweep. fold P. rewrite E1, E2.
  replace (Nat.even (2 * i)) with true by (symmetry; apply Nat.even_spec; exists i; reflexivity).
  replace (Nat.even (2 * i + 1)) with false by (rewrite Nat.add_1_r, Nat.even_succ; symmetry; rewrite <- Nat.negb_even; replace (Nat.even (2 * i)) with true; [reflexivity|symmetry; apply Nat.even_spec; exists i; reflexivity]).
  replace (2 * i / 2)%nat with i by (rewrite Nat.mul_comm, Nat.div_mul; lia).
  replace ((2 * i + 1) / 2)%nat with i by (apply (Nat.div_unique _ 2 _ 1); lia).
  unfold i. split.
  - replace (a * n + b)%nat with (b + a * n)%nat by lia. rewrite Nat.div_add by exact Hn. rewrite (Nat.div_small b n Hb). apply Nat.mod_small. lia.
  - rewrite Nat.add_comm, Nat.mod_add by exact Hn. rewrite (Nat.mod_small b n Hb). apply Nat.mod_small, Hb.
Qed.

(** C39.  Whatever the random generator delivers, a spanning tree made on an object whose
    graph has no edges is a tree on all its vertices. *)
Theorem random_spanning_tree : forall rnd g pos, stored g -> 1 <= numVertex g -> (forall a b, ~ adjacent g a b) ->
  exists g' pos', spanning_tree rnd g pos = Ok (g', pos') /\ tree (numVertex g) g'.
Proof.
  intros rnd g pos S0 H E. destruct (spanning_ok rnd g pos S0 H) as (g'&R&S1&N1&C1&L1&_&Z1). exists g'. eexists. split; [exact R|].
  split; [|split; [exact C1|apply Z1, E]]. split; [exact N1|]. split; [exact S1|]. apply L1. intros a. apply E.
Qed.
Print Assumptions random_spanning_tree.
Example random_spanning_tree_sample :
  exists g, spanning_tree (fun p => (p * p + 3)%nat) (empty_graph 5) 0 = Ok (g, 8%nat) /\ edges g = [[4; 3; 2]; [2]; []; []; []]%nat.
Proof. eexists. split; [vm_compute; reflexivity|reflexivity]. Qed.

(** It does not clear the graph: on an object that already holds one it adds a tree to
    it, so the result need not be a tree, though it is connected. *)
Theorem spanning_tree_not_cleared_refuted :
  exists rnd g pos g' pos', calls 5 rnd (new_graph, O) [Linear 4] = Ok (g, pos) /\ spanning_tree rnd g pos = Ok (g', pos') /\
    ~ tree 4 g' /\ Z.of_nat (size g') = 4.
Proof.
  exists (fun p => p). eexists. eexists. eexists. eexists. split; [vm_compute; reflexivity|]. split; [vm_compute; reflexivity|].
  split; [intros (_&_&X); vm_compute in X; discriminate|vm_compute; reflexivity].
Qed.
Print Assumptions spanning_tree_not_cleared_refuted.
Theorem spanning_tree_connects : forall rnd g pos, stored g -> 1 <= numVertex g ->
  exists g' pos', spanning_tree rnd g pos = Ok (g', pos') /\ connected g' /\ (forall a b, adjacent g a b -> adjacent g' a b).
Proof. intros rnd g pos S0 H. destruct (spanning_ok rnd g pos S0 H) as (g'&R&S1&N1&C1&L1&M1&Z1). exists g'. eexists. split; [exact R|]. split; [exact C1|exact M1]. Qed.
Print Assumptions spanning_tree_connects.

(** C39.  For every request that makes sense and every outcome of the random generator,
    the random connected graph is simple, connected and has the requested number of
    edges, or the program is still drawing. *)
Theorem random_connected_graph : forall fuel rnd g n k pos,
  2 < n -> n - 1 <= k -> k <= n * (n - 1) / 2 -> n * (n - 1) <= 2147483647 ->
  random_connected fuel rnd g n k pos = Err OutOfFuel \/
  exists g' pos', random_connected fuel rnd g n k pos = Ok (g', pos') /\ simple n g' /\ connected g' /\ Z.of_nat (size g') = k.
Proof. intros. apply random_connected_safe. repeat split; assumption. Qed.
Print Assumptions random_connected_graph.
(** And it stops drawing if every pair of vertices keeps coming up. *)
Theorem random_connected_terminates : forall rnd g n k pos,
  2 < n -> n - 1 <= k -> k <= n * (n - 1) / 2 -> n * (n - 1) <= 2147483647 -> fair rnd (Z.to_nat n) ->
  exists fuel r, random_connected fuel rnd g n k pos = Ok r.
Proof. intros. apply random_connected_live; [repeat split; assumption|assumption]. Qed.
Print Assumptions random_connected_terminates.
Example random_connected_sample :
  exists g p, random_connected 100 (sweep 4) new_graph 4 5 0 = Ok (g, p) /\ edges g = [[3; 1]; [3; 2]; [3]; []]%nat.
Proof. eexists. eexists. split; [vm_compute; reflexivity|reflexivity]. Qed.
(** The test of the request overflows int for graphs of more than 46341 vertices. *)
Theorem large_request_refuted : forall fuel rnd g k pos, 49999 <= k < 2147483647 -> random_connected fuel rnd g 50000 k pos = Err IntOverflow.
Proof.
  intros fuel rnd g k pos H. unfold random_connected. change (50000 <=? 2) with false. cbv iota.
  rewrite int_ok by lia. cbn [negb]. rewrite Z.gtb_ltb, (proj2 (Z.ltb_ge (k + 1) 50000)) by lia. reflexivity.
Qed.
Print Assumptions large_request_refuted.

(** C39.  The fixed families have exactly the advertised edges. *)
Theorem linear_graph : forall g0 n, 2 <= n -> exists g, make_linear g0 n = Ok g /\ simple n g /\
  forall a b, adjacent g a b <-> (Z.of_nat a < n /\ Z.of_nat b < n) /\ (b = a + 1 \/ a = b + 1)%nat.
Proof. intros g0 n H. destruct (linear_ok g0 n H) as (g&E&S1&_&A). exists g. auto. Qed.
Print Assumptions linear_graph.
Theorem circle_graph : forall g0 n, 3 <= n -> exists g, make_circle g0 n = Ok g /\ simple n g /\
  forall a b, adjacent g a b <-> cyclic (Z.to_nat n) a b.
Proof. intros g0 n H. destruct (circle_ok g0 n H) as (g&E&S1&_&A). exists g. auto. Qed.
Print Assumptions circle_graph.
Theorem circle_with_center_graph : forall g0 n o, 4 <= n -> o <> 0 -> exists g, make_circle_with_center g0 n o = Ok g /\ simple n g /\
  forall a b, adjacent g a b <-> cyclic (Z.to_nat n - 1) a b \/
     (Z.of_nat b = n - 1 /\ Z.of_nat a < n - 1 /\ (o | Z.of_nat a)) \/ (Z.of_nat a = n - 1 /\ Z.of_nat b < n - 1 /\ (o | Z.of_nat b)).
Proof. exact center_ok. Qed.
Print Assumptions circle_with_center_graph.
Theorem checkerboard_graph : forall g0 row col, 2 <= row -> 2 <= col -> row * col <= 2147483647 ->
  exists g, make_checkerboard g0 row col = Ok g /\ simple (row * col) g /\
  forall r c r' c', Z.of_nat r < row -> Z.of_nat c < col -> Z.of_nat r' < row -> Z.of_nat c' < col ->
   (adjacent g (r * Z.to_nat col + c)%nat (r' * Z.to_nat col + c')%nat <-> board (r, c) (r', c')).
Proof. exact checker_ok. Qed.
Print Assumptions checkerboard_graph.
Theorem petersen_graphs : forall k, 0 <= k -> 10 * k <= 2147483647 ->
  exists g, make_petersen_fun k = Ok g /\ simple (10 * k) g /\ Z.of_nat (size g) = 15 * k /\
   forall i x j y, Z.of_nat i < k -> Z.of_nat j < k -> (x < 10)%nat -> (y < 10)%nat ->
     (adjacent g (10 * i + x)%nat (10 * j + y)%nat <-> i = j /\ disjoint (nth x two_subsets (0,0)%nat) (nth y two_subsets (0,0)%nat)).
Proof. exact petersens_ok. Qed.
Print Assumptions petersen_graphs.
Theorem petersen_graph : make_petersen = make_petersen_fun 1.
Proof. exact petersen_is_one. Qed.
Example families_sample :
  make_linear new_graph 4 = Ok (mkGraph 4 [[1]; [2]; [3]; []]%nat) /\
  make_circle new_graph 4 = Ok (mkGraph 4 [[1; 3]; [2]; [3]; []]%nat) /\
  make_circle_with_center new_graph 5 2 = Ok (mkGraph 5 [[1; 3; 4]; [2]; [3; 4]; []; []]%nat) /\
  make_checkerboard new_graph 2 3 = Ok (mkGraph 6 [[1; 3]; [2; 4]; [5]; [4]; [5]; []]%nat) /\
  make_petersen = Ok (mkGraph 10 [[1; 4; 5]; [2; 6]; [3; 7]; [4; 8]; [9]; [7; 8]; [8; 9]; [9]; []; []]%nat).
Proof. vm_compute. repeat split. Qed.

(** C39.  Graphs typed in have exactly the legal pairs typed before -1. *)
Theorem own_graph : forall n l, 0 <= n -> exists g, make_own n l = Ok g /\ stored g /\ numVertex g = n /\
  forall a b, adjacent g a b <-> In (Z.of_nat a, Z.of_nat b) (typed n l) \/ In (Z.of_nat b, Z.of_nat a) (typed n l).
Proof. exact own_ok. Qed.
Print Assumptions own_graph.
Example own_sample : make_own 3 [(2, 0); (5, 1); (0, 2); (1, 1); (-1, 7); (0, 1)] = Ok (mkGraph 3 [[2]; [1]; []]%nat).
Proof. vm_compute. reflexivity. Qed.

(** C39.  After every history of calls on one object, with any arguments and any random
    numbers, the edges are stored the documented way; a history can only end early
    because of memory requests of negative size, the offset 0, int overflow or unlucky
    draws. *)
Theorem every_history_stored : forall fuel rnd l,
  match calls fuel rnd (new_graph, O) l with
  | Ok (g, _) => stored g
  | Err e => e = OutOfFuel \/ e = Thrown \/ e = DivByZero \/ e = IntOverflow
  end.
Proof. intros fuel rnd l. exact (calls_good fuel rnd l new_graph O new_stored). Qed.
Print Assumptions every_history_stored.
Example history_sample :
  exists g p, calls 50 (sweep 4) (new_graph, O) [Circle 7; Connected 4 4; Linear 1; Tree; Own 2 [(1, 1)]; Tree] = Ok (g, p) /\ edges g = [[1]; [1]]%nat.
Proof. eexists. eexists. split; [vm_compute; reflexivity|reflexivity]. Qed.

(** C69.  Random disconnected graphs are simple, have the requested number of edges and no
    edge between the two halves, for every outcome of the random generator. *)
Theorem random_disconnected_graph : forall fuel rnd g n k pos, 4 <= n < 2147483647 -> 0 <= k < 2147483647 ->
  random_disconnected fuel rnd g n k pos = Err OutOfFuel \/
  exists g' pos', random_disconnected fuel rnd g n k pos = Ok (g', pos') /\ simple n g' /\ Z.of_nat (size g') = k /\
    forall a b, Z.of_nat a < (n + 1) / 2 -> (n + 1) / 2 <= Z.of_nat b -> ~ adjacent g' a b.
Proof.
  intros fuel rnd g n k pos Hn Hk. destruct (random_disconnected_safe fuel rnd g n k pos (conj Hn Hk)) as [E|(g'&p'&E&S1&Z1&A&_)]; [left; exact E|].
  right. exists g', p'. split; [exact E|]. split; [exact S1|]. split; [exact Z1|]. intros a b Ha Hb X. apply A in X. unfold half_up in X. lia.
Qed.
Print Assumptions random_disconnected_graph.
(** It stops for fair streams if each half can hold its share of the edges ... *)
Theorem random_disconnected_terminates : forall rnd g n k pos, 4 <= n < 2147483647 -> 0 <= k < 2147483647 ->
  fair rnd (Z.to_nat ((n + 1) / 2)) -> fair rnd (Z.to_nat (n / 2)) ->
  2 * ((k + 1) / 2) <= (n + 1) / 2 * ((n + 1) / 2 - 1) -> 2 * (k / 2) <= n / 2 * (n / 2 - 1) ->
  exists fuel r, random_disconnected fuel rnd g n k pos = Ok r.
Proof.
  intros rnd g n k pos Hn Hk F1 F2 B1 B2. pose proof (Z.div_le_lower_bound (n + 1) 2 1 ltac:(lia) ltac:(lia)). pose proof (Z.div_le_lower_bound n 2 1 ltac:(lia) ltac:(lia)).
  apply random_disconnected_live; [exact (conj Hn Hk)|exact F1|exact F2| |]; unfold half_up, half_down; nia.
Qed.
Print Assumptions random_disconnected_terminates.
(** ... and never otherwise, whatever is drawn: the request is not checked. *)
Theorem random_disconnected_hangs_refuted : forall fuel rnd g n k pos, 4 <= n < 2147483647 -> 0 <= k < 2147483647 ->
  (n + 1) / 2 * ((n + 1) / 2 - 1) < 2 * ((k + 1) / 2) \/ n / 2 * (n / 2 - 1) < 2 * (k / 2) ->
  random_disconnected fuel rnd g n k pos = Err OutOfFuel.
Proof.
  intros fuel rnd g n k pos Hn Hk B. destruct (random_disconnected_safe fuel rnd g n k pos (conj Hn Hk)) as [E|(g'&p'&_&_&_&_&C1&C2)]; [exact E|exfalso].
  pose proof (Z.div_le_lower_bound (n + 1) 2 1 ltac:(lia) ltac:(lia)). pose proof (Z.div_le_lower_bound n 2 1 ltac:(lia) ltac:(lia)).
  unfold half_up, half_down in *. destruct B as [B|B]; nia.
Qed.
Print Assumptions random_disconnected_hangs_refuted.
Example random_disconnected_sample :
  (exists g p, random_disconnected 100 (sweep 3) new_graph 6 5 0 = Ok (g, p) /\ edges g = [[1; 2]; [2]; []; [5]; [5]; []]%nat) /\
  (forall fuel rnd, random_disconnected fuel rnd new_graph 4 4 0 = Err OutOfFuel).
Proof.
  split; [eexists; eexists; split; [vm_compute; reflexivity|reflexivity]|].
  intros fuel rnd. apply random_disconnected_hangs_refuted; [lia|lia|]. right. vm_compute. reflexivity.
Qed.
