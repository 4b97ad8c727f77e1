(** C89: latte-maximize and latte-minimize by digging.  Specification: DigSpec.v. *)
From Coq Require Import Permutation.
From Verif Require Import Common ExpSpec ExpProofs4 BrionProofs DigHeap DigHeapProofs Dig DigProofs DigProofs2 DigProofs3 DigProofs4 DigProofs5 DigSpec.
Open Scope Z_scope.

Lemma idot_value a : forall b, idot a b = value_at a b.
Proof. induction a as [|x a IH]; intros [|y b]; try reflexivity. unfold value_at in *. cbn [idot combine map fold_right fst snd]. now rewrite IH. Qed.
Lemma value_opp c x : value_at (map Z.opp c) x = - value_at c x.
Proof. rewrite <- !idot_value. revert x. induction c as [|a c IH]; intros [|b x]; cbn [map idot]; try reflexivity. rewrite IH. ring. Qed.
Lemma feasible_iff n matrix x : (forall row, In row matrix -> length row = S n) -> (feasible matrix x = true <-> satisfies matrix x).
Proof.
  intros L. unfold feasible, satisfies. rewrite forallb_forall. assert (E : forall row, In row matrix -> (row_ok x row = true <-> 0 <= value_at row (1 :: x))); [|split; intros H row Hr; apply (E row Hr), H, Hr].
  intros row Hr. specialize (L row Hr). destruct row as [|b a]; [discriminate L|]. rewrite <- idot_value. cbn [row_ok idot]. rewrite Z.leb_le. lia.
Qed.
Lemma describes_ok n matrix points : describes n matrix points -> Forall (fun p => length p = n) points /\ forall x, length x = n -> (In x points <-> feasible matrix x = true).
Proof.
  intros (L&_&H). split; [apply Forall_forall; intros p Hp; apply H, Hp|]. intros x Hx. rewrite H, (feasible_iff n matrix x L). tauto.
Qed.
Lemma decomposes_ok n cones points : decomposes n cones points -> Forall (cone_ok n) cones /\ Forall (fun c => dc_rays c <> []) cones /\ generates n (map gcone_of cones) points.
Proof.
  intros (H&G). split; [|split; [|exact G]]; apply Forall_forall; intros c Hc; destruct (H c Hc) as (H1&H2&H3&H4).
  - split; [exact H1|]. split; [apply H2|]. split; [apply Forall_forall; exact H3|exact H4].
  - destruct (dc_rays c); [cbn in H2; lia|discriminate].
Qed.
Lemma generic_ok cost cones : Forall (fun c => dc_rays c <> []) cones -> orthogonal_to_no_ray cost cones -> Forall (generic cost) cones.
Proof.
  intros F H. rewrite Forall_forall in *. intros c Hc. split; [apply F, Hc|]. apply Forall_forall. intros r Hr. rewrite idot_value. apply (H c r Hc Hr).
Qed.
Lemma optimal_ok cost points x k : NoDup points -> optimal cost points x k -> a_maximum cost points x k.
Proof.
  intros ND (I0&M&E). split; [exact I0|]. split; [intros y Hy; rewrite <- !idot_value; apply M, Hy|]. exists (filter (fun p => idot cost p =? idot cost x) points). split; [apply NoDup_filter, ND|]. split; [|exact E].
  intros y. rewrite filter_In, Z.eqb_eq, <- !idot_value. tauto.
Qed.

(** Vector_Heap and ConeInfo_Heap: after any history of additions and removals an addition works,
    and a removal gives a value with the largest key, or nothing when the heap is empty. *)
Theorem heaps_give_the_largest : forall (A : Type) (key : A -> Z) h bag, heap_history key h bag ->
  (forall x, exists h', add_heap key x h = Ok h') /\
  (bag = [] /\ pop_heap key h = Ok None \/
   exists x h' bag', pop_heap key h = Ok (Some (x, h')) /\ Permutation bag (x :: bag') /\ forall y, In y bag -> key y <= key x) /\
  forall k, check_top key k h = true <-> (exists x, In x bag /\ key x = k) /\ forall y, In y bag -> key y <= k.
Proof.
  intros A key h bag H. assert (VP : valid key h /\ Permutation (hvalues h) bag).
  { induction H as [|h bag x h' H (V&P) E|h bag x h' bag' H (V&P) E PB].
    - split; [apply empty_valid|apply Permutation_refl].
    - destruct (add_ok key x h V) as (h2&E2&V2&P2). rewrite E in E2. injection E2 as <-. split; [exact V2|]. rewrite P2, P. apply Permutation_refl.
    - destruct (pop_ok key h V) as [(_&Ep)|(y&h2&Ep&V2&P2&_)]; rewrite E in Ep; [discriminate Ep|]. injection Ep as <- <-. split; [exact V2|]. rewrite P, PB in P2. symmetry. exact (Permutation_cons_inv P2). }
  destruct VP as (V&P). split; [intros x; destruct (add_ok key x h V) as (h'&E&_); exists h'; exact E|]. destruct (pop_ok key h V) as [(E&Ep)|(x&h2&Ep&V2&P2&M&R)].
  - rewrite E in P. apply Permutation_nil in P. subst bag. split; [left; split; [reflexivity|exact Ep]|]. intros k. rewrite check_top_ok. split.
    + intros (x&Rx&_). apply root_in in Rx. unfold hvalues in E. rewrite E in Rx. destruct Rx.
    + intros ((x&[]&_)&_).
  - assert (M' : forall y, In y bag -> key y <= key x) by (intros y Hy; apply M, (Permutation_in _ (Permutation_sym P)), Hy). split.
    + right. exists x, h2, (hvalues h2). split; [exact Ep|]. split; [rewrite <- P; exact P2|exact M'].
    + intros k. rewrite check_top_ok. assert (Ix : In x bag) by (apply (Permutation_in _ P), (Permutation_in _ (Permutation_sym P2)); now left). split.
      * intros (y&Ry&Ky). rewrite R in Ry. injection Ry as <-. subst k. split; [exists x; split; [exact Ix|reflexivity]|exact M'].
      * intros ((y&Iy&Ky)&Mk). exists x. split; [exact R|]. specialize (M' y Iy). specialize (Mk x Ix). lia.
Qed.
Print Assumptions heaps_give_the_largest.
(** Non-vacuity: three additions and a removal. *)
Example heap_example : exists h, heap_history (fun z : Z => z) h [1; 2] /\ pop_heap (fun z : Z => z) h = Ok (Some (2, mkHeap 1 (Node 1 Leaf Leaf))).
Proof.
  exists (mkHeap 2 (Node 2 (Node 1 Leaf Leaf) Leaf)). split; [|reflexivity].
  apply (hh_pop _ (mkHeap 3 (Node 5 (Node 1 Leaf Leaf) (Node 2 Leaf Leaf))) [2; 5; 1] 5); [|reflexivity|apply perm_trans with [5; 2; 1]; [apply perm_swap|apply perm_skip, perm_swap]].
  apply (hh_add _ (mkHeap 2 (Node 5 (Node 1 Leaf Leaf) Leaf)) [5; 1] 2); [|reflexivity]. apply (hh_add _ (mkHeap 1 (Node 1 Leaf Leaf)) [1] 5); [|reflexivity]. apply (hh_add _ empty_heap [] 1); [constructor|reflexivity].
Qed.

(** SolveIP: whatever it returns is a point of the polytope where the cost it used is largest, and
    the printed number of optimal solutions is right.  The cost used is the given one, or the given
    one perturbed; it is the given one if no ray is orthogonal to it. *)
Theorem digging_finds_a_maximum : forall n cones points matrix cost rnd fuel x k used, decomposes n cones points -> describes n matrix points ->
  solve_ip fuel rnd cones matrix cost n = Ok (x, k, used) ->
  a_maximum used points x k /\ (used = cost \/ exists j, used = perturb_with (perturb_factor n cones) cost (rnd j)) /\
  (orthogonal_to_no_ray cost cones -> used = cost).
Proof.
  intros n cones points matrix cost rnd fuel x k used D M E. destruct (decomposes_ok n cones points D) as (Fo&Fn&G). destruct (describes_ok n matrix points M) as (Lp&Ds). destruct (solve_sound n cones points matrix cost Fo Fn Lp G Ds fuel rnd x k used E) as (Op&U&Ug).
  split; [apply optimal_ok; [apply M|exact Op]|]. split; [exact U|]. intros H. apply Ug, generic_ok; assumption.
Qed.
Print Assumptions digging_finds_a_maximum.
(** It ends, with a maximum for the given cost, when there is a point and no ray is orthogonal to the cost. *)
Theorem maximize_total : forall n cones points matrix cost rnd, decomposes n cones points -> describes n matrix points -> points <> [] -> orthogonal_to_no_ray cost cones ->
  exists F x k, a_maximum cost points x k /\ forall fuel, (F <= fuel)%nat -> maximize fuel rnd cones matrix cost n = Ok (x, k, cost).
Proof.
  intros n cones points matrix cost rnd D M Np H. destruct (decomposes_ok n cones points D) as (Fo&Fn&G). destruct (describes_ok n matrix points M) as (Lp&Ds).
  destruct (solve_total n cones points matrix cost Fo (generic_ok cost cones Fn H) Lp Np G Ds rnd) as (F&x&k&Op&E). exists F, x, k. split; [apply optimal_ok; [apply M|exact Op]|exact E].
Qed.
Print Assumptions maximize_total.
(** latte-minimize: a point of smallest cost, and their number. *)
Theorem minimize_total : forall n cones points matrix cost rnd, decomposes n cones points -> describes n matrix points -> points <> [] -> orthogonal_to_no_ray cost cones ->
  exists F x k, In x points /\ (forall y, In y points -> value_at cost x <= value_at cost y) /\
    (exists best, NoDup best /\ (forall y, In y best <-> In y points /\ value_at cost y = value_at cost x) /\ k = Z.of_nat (length best)) /\
    forall fuel, (F <= fuel)%nat -> minimize fuel rnd cones matrix cost n = Ok (x, k, map Z.opp cost).
Proof.
  intros n cones points matrix cost rnd D M Np H. destruct (maximize_total n cones points matrix (map Z.opp cost) rnd D M Np) as (F&x&k&(I0&Mx&best&ND&Hb&Ek)&E).
  - intros c r Hc Hr. rewrite value_opp. specialize (H c r Hc Hr). lia.
  - exists F, x, k. split; [exact I0|]. split; [intros y Hy; specialize (Mx y Hy); rewrite !value_opp in Mx; lia|]. split; [|exact E]. exists best. split; [exact ND|]. split; [|exact Ek]. intros y. rewrite Hb, !value_opp. split; intros (H1&H2); (split; [exact H1|lia]).
Qed.
Print Assumptions minimize_total.

Lemma perturb_value m cost : forall r x, length r = length cost -> value_at (perturb_with m cost r) x = m * value_at cost x + value_at r x.
Proof.
  intros r x L. rewrite <- !idot_value. revert r x L. induction cost as [|c cost IH]; intros [|y r] x L; try discriminate L; [destruct x; cbn; lia|]. destruct x as [|z x]; cbn [perturb_with idot]; [lia|]. rewrite IH by (cbn in L; lia). ring.
Qed.
Lemma small_value r : Forall (fun y => -9 <= y <= 9) r -> forall x y, length x = length r -> length y = length r -> value_at r y - value_at r x <= 9 * fold_right Z.add 0 (map (fun p => Z.abs (fst p - snd p)) (combine x y)).
Proof.
  induction 1 as [|a r Ha F IH]; intros [|x xs] [|y ys] Lx Ly; try discriminate Lx; try discriminate Ly; [cbn; lia|]. unfold value_at in *. cbn [combine map fold_right fst snd length] in *. specialize (IH xs ys ltac:(lia) ltac:(lia)). nia.
Qed.
Lemma dist_nonneg x : forall y, 0 <= fold_right Z.add 0 (map (fun p => Z.abs (fst p - snd p)) (combine x y)).
Proof. induction x as [|a x IH]; intros [|b y]; cbn [combine map fold_right fst snd]; try lia. specialize (IH y). lia. Qed.
(** A perturbed run: the point is a maximum for the given cost if the factor of the perturbation is
    larger than nine times the distance (sum of the absolute values) of any two points. *)
Theorem perturbed_maximum : forall n cones points matrix cost rnd fuel x k used, decomposes n cones points -> describes n matrix points ->
  solve_ip fuel rnd cones matrix cost n = Ok (x, k, used) -> length cost = n -> (forall j, length (rnd j) = n /\ Forall (fun y => -9 <= y <= 9) (rnd j)) ->
  (forall y z, In y points -> In z points -> 9 * fold_right Z.add 0 (map (fun p => Z.abs (fst p - snd p)) (combine y z)) < perturb_factor n cones) ->
  In x points /\ forall y, In y points -> value_at cost y <= value_at cost x.
Proof.
  intros n cones points matrix cost rnd fuel x k used D M E Lc Rn Fa. destruct (digging_finds_a_maximum n cones points matrix cost rnd fuel x k used D M E) as ((I0&Mx&_)&[->|(j&->)]&_); (split; [exact I0|]); intros y Hy; specialize (Mx y Hy); [exact Mx|].
  destruct (Rn j) as (Lr&Fr). rewrite !perturb_value in Mx by lia. destruct M as (_&_&Hp). pose proof (small_value (rnd j) Fr y x) as S0. rewrite Lr in S0. specialize (S0 (proj1 (proj1 (Hp y) Hy)) (proj1 (proj1 (Hp x) I0))). specialize (Fa y x Hy I0). pose proof (dist_nonneg y x) as Dn. destruct (Z_le_gt_dec (value_at cost y) (value_at cost x)) as [|Gt]; [assumption|exfalso]. set (m := perturb_factor n cones) in *. assert (m * 1 <= m * (value_at cost y - value_at cost x)) by (apply Z.mul_le_mono_nonneg_l; lia). lia.
Qed.
Print Assumptions perturbed_maximum.

(** Non-vacuity: the triangle x, y >= 0, x + y <= 1 with its three tangent cones. *)
Definition tri_cones : list dcone := [mkDcone 1 [[1;0];[0;1]] [0;0]; mkDcone 1 [[-1;0];[-1;1]] [1;0]; mkDcone 1 [[0;-1];[1;-1]] [0;1]].
Definition tri_rows : list (list Z) := [[0;1;0];[0;0;1];[1;-1;-1]].
Definition tri_points : list (list Z) := [[0;0];[1;0];[0;1]].
Lemma tri_describes : describes 2 tri_rows tri_points.
Proof.
  split; [intros row [<-|[<-|[<-|[]]]]; reflexivity|]. split; [repeat (constructor; [cbn; intuition discriminate|]); constructor|]. intros x. split.
  - intros [<-|[<-|[<-|[]]]]; (split; [reflexivity|]); intros row [<-|[<-|[<-|[]]]]; vm_compute; discriminate.
  - intros (L&H). destruct x as [|a [|b [|]]]; try discriminate L. pose proof (H [0;1;0] ltac:(cbn; auto)) as H1. pose proof (H [0;0;1] ltac:(cbn; auto)) as H2. pose proof (H [1;-1;-1] ltac:(cbn; auto)) as H3. unfold value_at in H1, H2, H3. cbn [combine map fold_right fst snd] in H1, H2, H3.
    assert (C : a = 0 /\ b = 0 \/ a = 1 /\ b = 0 \/ a = 0 /\ b = 1) by lia. destruct C as [(->&->)|[(->&->)|(->&->)]]; cbn; auto.
Qed.

Lemma small_decomposes n cones points : gequal_b (fst (grational n (map (fun c => (dc_coef c, dc_rays c, [dc_point c])) cones))) (gmul (gpoints points) (snd (grational n (map (fun c => (dc_coef c, dc_rays c, [dc_point c])) cones)))) = true ->
  forallb (fun c => ((dc_coef c =? 1) || (dc_coef c =? -1)) && (1 <=? length (dc_rays c))%nat && (length (dc_rays c) <=? n)%nat && forallb (fun r => length r =? n)%nat (dc_rays c) && (length (dc_point c) =? n)%nat) cones = true -> decomposes n cones points.
Proof.
  intros G H. split; [|now apply gequal_b_ok]. intros c Hc. rewrite forallb_forall in H. specialize (H c Hc). rewrite !Bool.andb_true_iff, Bool.orb_true_iff, !Z.eqb_eq, !Nat.leb_le, Nat.eqb_eq, forallb_forall in H. destruct H as ((((H1&H2)&H3)&H4)&H5). split; [exact H1|]. split; [auto|]. split; [|exact H5]. intros r Hr. apply Nat.eqb_eq, H4, Hr.
Qed.
Lemma tri_decomposes : decomposes 2 tri_cones tri_points.
Proof. apply small_decomposes; vm_compute; reflexivity. Qed.
Example maximize_example : orthogonal_to_no_ray [2;1] tri_cones /\ maximize 10 (fun _ => []) tri_cones tri_rows [2;1] 2 = Ok ([1;0], 1, [2;1]) /\ minimize 10 (fun _ => []) tri_cones tri_rows [2;1] 2 = Ok ([0;0], 1, [-2;-1]).
Proof.
  split; [|split; vm_compute; reflexivity]. intros c r [<-|[<-|[<-|[]]]] Hr; cbn in Hr; decompose [or] Hr; try contradiction; subst r; vm_compute; discriminate.
Qed.
(** A perturbed run that meets the hypotheses of [perturbed_maximum]: the factor is 41, the distances at most 2. *)
Example perturbed_example : perturb_factor 2 tri_cones = 41 /\ solve_ip 10 (fun _ => [3;-4]) tri_cones tri_rows [1;0] 2 = Ok ([1;0], 1, [44;-4]) /\
  forall y z, In y tri_points -> In z tri_points -> 9 * fold_right Z.add 0 (map (fun p => Z.abs (fst p - snd p)) (combine y z)) < 41.
Proof. split; [reflexivity|]. split; [vm_compute; reflexivity|]. intros y z [<-|[<-|[<-|[]]]] [<-|[<-|[<-|[]]]]; vm_compute; reflexivity. Qed.

(** That hypothesis cannot be dropped.  Calculate_Pertubation sets Maximum_Coordinate to a negative
    entry, not to its absolute value: if the last ray ends with the entry of largest absolute value and that is negative, the
    factor is negative.  Here two cancelling cones end the list; asked for the maximum of the first coordinate, and for any
    random numbers that do not give a zero product, SolveIP returns the minimum. *)
Definition bad_cones : list dcone := tri_cones ++ [mkDcone 1 [[0;1];[1;-5]] [0;0]; mkDcone (-1) [[0;1];[1;-5]] [0;0]].
Theorem maximum_of_given_cost_refuted : decomposes 2 bad_cones tri_points /\ describes 2 tri_rows tri_points /\ perturb_factor 2 bad_cones = -199 /\
  solve_ip 10 (fun _ => [3;4]) bad_cones tri_rows [1;0] 2 = Ok ([0;1], 1, [-196;4]) /\
  forall rnd fuel x k used, (forall j, length (rnd j) = 2%nat /\ Forall (fun y => -9 <= y <= 9) (rnd j)) -> solve_ip fuel rnd bad_cones tri_rows [1;0] 2 = Ok (x, k, used) -> ~ (forall y, In y tri_points -> value_at [1;0] y <= value_at [1;0] x).
Proof.
  assert (D : decomposes 2 bad_cones tri_points) by (apply small_decomposes; vm_compute; reflexivity). split; [exact D|]. split; [exact tri_describes|]. split; [reflexivity|]. split; [vm_compute; reflexivity|].
  intros rnd fuel x k used R E H. destruct (digging_finds_a_maximum 2 bad_cones tri_points tri_rows [1;0] rnd fuel x k used D tri_describes E) as ((I0&Mx&_)&U&_).
  assert (X : x = [1;0]). { specialize (H [1;0] ltac:(cbn; auto)). destruct I0 as [<-|[<-|[<-|[]]]]; [vm_compute in H; exfalso; apply H; reflexivity|reflexivity|vm_compute in H; exfalso; apply H; reflexivity]. } subst x.
  destruct U as [->|(j&->)].
  - destruct fuel as [|f]; [discriminate E|]. unfold solve_ip in E. destruct (prepare (S f) 2 rnd 0 [1; 0] [1; 0] bad_cones) as [(u, h)|] eqn:Ep; [|discriminate E]. cbn [bind] in E. destruct (dig_loop (S f) tri_rows h) as [(x', k')|]; [|discriminate E]. cbn [bind] in E. injection E as _ _ ->.
    destruct (decomposes_ok 2 bad_cones tri_points D) as (Fo&Fn&_). destruct (prepare_ok 2 rnd [1;0] bad_cones tri_points Fo Fn (S f) 0 [1;0] [1;0] h Ep) as (G&_). rewrite Forall_forall in G. destruct (G (mkDcone 1 [[1;0];[0;1]] [0;0]) ltac:(now left)) as (_&G1). rewrite Forall_forall in G1. apply (G1 [0;1]); [cbn; auto|reflexivity].
  - destruct (R j) as (L&F). destruct (rnd j) as [|a [|b [|]]]; try discriminate L. pose proof (Forall_inv F) as Ha. cbv beta in Ha. specialize (Mx [0;0] ltac:(cbn; auto)). rewrite !perturb_value in Mx by reflexivity. change (perturb_factor 2 bad_cones) with (-199) in Mx. unfold value_at in Mx. cbn [combine map fold_right fst snd] in Mx. lia.
Qed.
Print Assumptions maximum_of_given_cost_refuted.
