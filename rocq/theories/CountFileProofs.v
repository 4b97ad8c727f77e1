(** C85: the system of equations and inequalities, and its reduction. *)
From Coq Require Import QArith Qround Lqa.
From Verif Require Import Common ZMat Hermite HermiteSpec HermiteProofs PipedSpec PipedProofs3 ConeSpec CountSpec BrionLinear BrionProofs4 OmegaProofs4 Preproc PreprocSpec PreprocProofs GenFun GenFunProofs7 CountFileSpec.
Open Scope Z_scope.

(** The part of a row that sees directions. *)
Definition dirval (n : nat) (c : list Z) (y : nat -> Q) : Q := sumq n (fun k => (y k * inject_Z (nth (S k) c 0%Z))%Q).
Lemma slack_dir n c x : (slack n c x == inject_Z (nth 0 c 0%Z) + dirval n c x)%Q.
Proof. reflexivity. Qed.
Lemma dirval_ext n c x y : (forall k, (k < n)%nat -> (x k == y k)%Q) -> (dirval n c x == dirval n c y)%Q.
Proof. intros H. apply sumq_ext. intros k Hk. now rewrite H. Qed.
Lemma dirval_lin n c x y t : (dirval n c (fun k => x k + t * y k) == dirval n c x + t * dirval n c y)%Q.
Proof. unfold dirval. rewrite <- sumq_scal, <- sumq_add. apply sumq_ext. intros k _. ring. Qed.
Lemma dirval_scal n c y t : (dirval n c (fun k => t * y k) == t * dirval n c y)%Q.
Proof. unfold dirval. rewrite <- sumq_scal. apply sumq_ext. intros k _. ring. Qed.
Lemma row_value_slack n t c x : (inject_Z (row_value n t c x) == inject_Z t * inject_Z (nth 0 c 0%Z) + dirval n c (fun k => inject_Z (x k)))%Q.
Proof.
  unfold row_value, dirval. rewrite inject_Z_plus, inject_Z_mult. apply Qplus_comp; [reflexivity|]. rewrite <- sumq_inj. apply sumq_ext. intros k _. replace (k + 1)%nat with (S k) by lia. rewrite inject_Z_mult. ring.
Qed.
Lemma inject_le a b : (inject_Z a <= inject_Z b)%Q <-> a <= b.
Proof. rewrite Zle_Qle. reflexivity. Qed.
Lemma inject_eq a b : (inject_Z a == inject_Z b)%Q <-> a = b.
Proof. apply inject_Z_injective. Qed.

Section System.
Context (n : nat) (eqs ineqs : list (list Z)).
Context (Hn : (0 < n)%nat) (IND : independent n eqs).
(** no direction *)
Context (NODIR : forall y, (forall e, In e eqs -> (dirval n e y == 0)%Q) -> (forall a, In a ineqs -> (0 <= dirval n a y)%Q) -> forall k, (k < n)%nat -> (y k == 0)%Q).
(** no inequality follows from the equations *)
Context (IRR : forall a, In a ineqs -> exists x, (slack n a x < 0)%Q /\ forall e, In e eqs -> (slack n e x == 0)%Q).
Context (points : list (list Z)) (ND : NoDup points).
Context (PT : forall x, In x points <-> length x = n /\ sat_eqs n 1 eqs (coords x) /\ sat_ineqs n 1 ineqs (coords x)).

Lemma list_coords (x : nat -> Z) : forall k, (k < n)%nat -> x k = coords (map x (seq 0 n)) k.
Proof. intros k Hk. unfold coords. now rewrite nth_map_seq. Qed.
Lemma no_points : (forall x, sat_eqs n 1 eqs x -> ~ sat_ineqs n 1 ineqs x) -> points = [].
Proof. intros H. destruct points as [|x l]; [reflexivity|]. exfalso. destruct (proj1 (PT x) (or_introl eq_refl)) as (_ & A & B). exact (H _ A B). Qed.
(** Violated by a rational solution of the equations, so by an integer one. *)
Lemma violated a x0 p : (slack n a x0 < 0)%Q -> (forall e, In e eqs -> (slack n e x0 == 0)%Q) -> sat_eqs n 1 eqs p -> 0 <= row_value n 1 a p ->
  exists x, sat_eqs n 1 eqs x /\ row_value n 1 a x < 0.
Proof.
  intros V E Sp Pa. destruct (common1 n x0) as (D & PD & I). set (z := fun k => Qfloor (inject_Z D * x0 k)). assert (Z1 : forall k, (k < n)%nat -> (inject_Z (z k) == inject_Z D * x0 k)%Q) by (intros k Hk; symmetry; exact (I k Hk)).
  set (w := fun k => p k + (z k - D * p k)). exists w.
  assert (F : forall c, (inject_Z (row_value n 1 c w) == (1 - inject_Z D) * inject_Z (row_value n 1 c p) + inject_Z D * slack n c x0)%Q).
  { intros c. rewrite !row_value_slack, slack_dir. change (inject_Z 1) with 1%Q.
    rewrite (dirval_ext n c (fun k => inject_Z (w k)) (fun k => ((1 - inject_Z D) * inject_Z (p k) + inject_Z D * x0 k)%Q)).
    - rewrite dirval_lin. rewrite dirval_scal. ring.
    - intros k Hk. unfold w, Z.sub. rewrite !inject_Z_plus, inject_Z_opp, inject_Z_mult, (Z1 k Hk). ring. }
  split.
  - intros e He. apply inject_eq. rewrite (F e), (E e He), (Sp e He). ring.
  - apply Znot_ge_lt. intros G. apply Z.ge_le in G. apply inject_le in G. rewrite (F a) in G. apply inject_le in Pa. assert (1 <= inject_Z D)%Q by (apply (inject_le 1); lia). change (inject_Z 0) with 0%Q in *.
    assert (0 <= (inject_Z D - 1) * inject_Z (row_value n 1 a p))%Q by (apply Qmult_le_0_compat; lra). assert (inject_Z D * slack n a x0 < 0)%Q; [|lra]. setoid_replace 0%Q with (inject_Z D * 0)%Q by ring. apply Qmult_lt_l; [lra|exact V].
Qed.
Lemma few_equations : (length eqs <= n)%nat.
Proof.
  destruct (Nat.le_gt_cases (length eqs) n) as [L|L]; [exact L|]. exfalso.
  destruct (kernel_few (length eqs) (map (fun k i => ent eqs i (k + 1)) (seq 0 n)) ltac:(rewrite map_length, seq_length; exact L)) as (r & (i & Hi & Ni) & Kr).
  apply Ni. apply (IND r); [|exact Hi]. intros k Hk. apply inject_eq. rewrite <- sumq_inj. rewrite <- (Kr (fun i => ent eqs i (k + 1))); [|apply (in_map (fun k i => ent eqs i (k + 1))), in_seq; lia].
  unfold qdot, ivec. apply sumq_ext. intros j _. now rewrite inject_Z_mult.
Qed.
Lemma enough_equations : ineqs = [] -> length eqs = n.
Proof.
  intros E. pose proof few_equations as L. destruct (Nat.eq_dec (length eqs) n) as [X|X]; [exact X|]. exfalso.
  destruct (kernel_few n (map (fun e k => nth (S k) e 0) eqs) ltac:(rewrite map_length; lia)) as (r & (i & Hi & Ni) & Kr).
  apply Ni. apply inject_eq. apply (NODIR (ivec r)); [|rewrite E; intros a []|exact Hi]. intros e He. exact (Kr _ (in_map (fun e k => nth (S k) e 0) _ _ He)).
Qed.
(** The structure of a reduced system. *)
Lemma reduced_structure f p b rows : ineqs <> [] -> preprocess f eqs ineqs n 1 = Ok (Reduced p b rows) ->
  rows = filter (fun c => negb (trivial_row c)) (map (new_row n p b 1) ineqs) /\ rows <> [].
Proof.
  intros NE E. unfold preprocess in E. destruct ineqs as [|a0 l0] eqn:EI; [congruence|]. rewrite <- EI in *. destruct (ihermite f _ _ _ _) as [[[[rank S'] U] rhs']|]; [cbn [bind] in E|discriminate].
  destruct (n <? length eqs)%nat; [discriminate|]. destruct (negb _ && negb _); [discriminate|]. unfold reduce_ineqs in E. set (pp := map _ (seq 0 n)) in E. destruct (existsb _ _); [discriminate|].
  destruct (filter (fun b => negb (trivial_row b)) (map (new_row n pp (skipn rank U) 1) ineqs)) as [|r0 rs] eqn:F; [discriminate|]. injection E as <- <- <-. split; [now rewrite F|discriminate].
Qed.
Lemma new_row_len p b a : length (new_row n p b 1 a) = S (S (length b)).
Proof. unfold new_row. cbn [length]. rewrite app_length, map_length. cbn [length]. lia. Qed.
Lemma nth_cut' (l : list Z) : forall m k, (k < m)%nat -> nth k (firstn m l) 0 = nth k l 0.
Proof. exact (nth_cut l). Qed.
Lemma new_row_nth p b a j : (j < length b)%nat -> nth (S j) (new_row n p b 1 a) 0 = zsum n (fun k => nth (k + 1) a 0 * nth k (nth j b []) 0).
Proof.
  intros Hj. unfold new_row. cbn [nth]. rewrite app_nth1 by (now rewrite map_length). rewrite (nth_indep _ 0 (zsum n (fun k => nth (k + 1) a 0 * nth k [] 0))) by (now rewrite map_length).
  now rewrite (map_nth (fun g => zsum n (fun k => nth (k + 1) a 0 * nth k g 0)) b [] j).
Qed.
(** A direction of the reduced system is one of the original system. *)
Lemma lifted_dir p b a (y : nat -> Z) : (dirval n a (fun k => inject_Z (HermiteSpec.combination b y k)) == dirval (length b) (new_row n p b 1 a) (fun j => inject_Z (y j)))%Q.
Proof.
  unfold dirval. rewrite (sumq_ext (length b) _ (fun j => sumq n (fun k => (inject_Z (y j) * inject_Z (nth (S k) a 0%Z) * inject_Z (nth k (nth j b []) 0%Z))%Q))).
  - rewrite sumq_swap. apply sumq_ext. intros k _. unfold HermiteSpec.combination. rewrite <- sumq_inj. rewrite Qmult_comm, <- sumq_scal. apply sumq_ext. intros j _. unfold ent. rewrite inject_Z_mult. ring.
  - intros j Hj. rewrite new_row_nth by exact Hj. rewrite <- sumq_inj, <- sumq_scal. apply sumq_ext. intros k _. replace (k + 1)%nat with (S k) by lia. rewrite inject_Z_mult. ring.
Qed.
Lemma dirval_cut m c y : (dirval m (firstn (S m) c) y == dirval m c y)%Q.
Proof. apply sumq_ext. intros k Hk. now rewrite nth_cut by lia. Qed.
Lemma reduced_ok f p b rows : ineqs <> [] -> preprocess f eqs ineqs n 1 = Ok (Reduced p b rows) -> corresponds n 1 eqs ineqs p b rows ->
  let d := length b in let cut := map (firstn (S d)) rows in
  (0 < d)%nat /\ (d <= n)%nat /\ (forall c, In c cut -> length c = S d) /\ no_escape d cut /\ exists ys, integer_points d cut ys /\ length ys = length points.
Proof.
  intros NE E CO d cut. destruct (reduced_structure f p b rows NE E) as [ER NR]. pose proof CO as (C1 & C2 & C3 & C4).
  assert (TR : forall a, trivial_row (new_row n p b 1 a) = true -> forall k, (k < d)%nat -> nth (S k) (new_row n p b 1 a) 0 = 0).
  { intros a T k Hk. apply Z.eqb_eq in T. rewrite new_row_len in T. replace (S (S (length b)) - 2)%nat with d in T by (unfold d; lia). rewrite (zsum_abs_zero d (fun k => nth (k + 1) (new_row n p b 1 a) 0)) in T. specialize (T k Hk). now replace (k + 1)%nat with (S k) in T by lia. }
  split.
  { destruct rows as [|r0 rs]; [congruence|]. assert (I0 : In r0 (filter (fun c => negb (trivial_row c)) (map (new_row n p b 1) ineqs))) by (rewrite <- ER; now left). apply filter_In in I0 as [I0 T0]. apply in_map_iff in I0 as (a & Ea & _).
    unfold d. destruct (length b) eqn:Lb; [|lia]. exfalso. subst r0. unfold trivial_row in T0. rewrite new_row_len, Lb in T0. cbn in T0. discriminate. }
  split.
  { destruct (Nat.le_gt_cases d n) as [L|L]; [exact L|]. exfalso. destruct (kernel_few d (map (fun k j => ent b j k) (seq 0 n)) ltac:(rewrite map_length, seq_length; exact L)) as (r & (i & Hi & Ni) & Kr).
    apply Ni. apply (C3 r (fun _ => 0)); [|exact Hi]. intros k Hk. unfold affine_point. f_equal. apply inject_eq. unfold HermiteSpec.combination. rewrite <- !sumq_inj. fold d.
    rewrite (sumq_ext d _ (fun j => (ivec r j * inject_Z (ent b j k))%Q)) by (intros j _; unfold ivec; now rewrite inject_Z_mult). rewrite (Kr (fun j => ent b j k)); [|apply (in_map (fun k j => ent b j k)), in_seq; lia].
    symmetry. rewrite (sumq_ext d _ (fun _ => 0%Q)); [apply sumq_0|]. intros j _. reflexivity. }
  split.
  { intros c Hc. apply in_map_iff in Hc as (r & <- & Hr). rewrite ER in Hr. apply filter_In in Hr as [Hr _]. apply in_map_iff in Hr as (a & <- & _). rewrite firstn_length, new_row_len. unfold d. lia. }
  split.
  { intros y Hy. destruct (common1 d y) as (D & PD & I). set (z := fun k => Qfloor (inject_Z D * y k)). assert (Z1 : forall k, (k < d)%nat -> (inject_Z (z k) == inject_Z D * y k)%Q) by (intros k Hk; symmetry; exact (I k Hk)).
    assert (P0 : (0 < inject_Z D)%Q) by (change 0%Q with (inject_Z 0); rewrite <- Zlt_Qlt; exact PD).
    assert (Z0 : forall k, (k < n)%nat -> HermiteSpec.combination b z k = 0).
    { intros k Hk. apply inject_eq. refine (NODIR (fun k => inject_Z (HermiteSpec.combination b z k)) _ _ k Hk).
      - intros e He. pose proof (C1 z e He) as A1. pose proof (C1 (fun _ => 0) e He) as A0. apply inject_eq in A1, A0. rewrite row_value_slack in A1, A0.
        assert (A : (dirval n e (fun k => inject_Z (affine_point 1 p b z k)) == dirval n e (fun k => inject_Z (affine_point 1 p b (fun _ => 0%Z) k)))%Q) by (change (inject_Z 0) with 0%Q in A1, A0; lra).
        rewrite (dirval_ext n e (fun k => inject_Z (affine_point 1 p b z k)) (fun k => (inject_Z (affine_point 1 p b (fun _ => 0%Z) k) + 1 * inject_Z (HermiteSpec.combination b z k))%Q)) in A.
        + rewrite dirval_lin in A. lra.
        + intros i _. unfold affine_point at 1 2. assert (C0 : HermiteSpec.combination b (fun _ => 0) i = 0) by (unfold HermiteSpec.combination; apply zsum_zero; intros; reflexivity). rewrite C0, !inject_Z_plus. change (inject_Z 0) with 0%Q. ring.
      - intros a Ha. rewrite (lifted_dir p b a z). rewrite (dirval_ext (length b) _ (fun j => inject_Z (z j)) (fun j => (inject_Z D * y j)%Q)) by exact Z1. rewrite dirval_scal. apply Qmult_le_0_compat; [lra|].
        destruct (trivial_row (new_row n p b 1 a)) eqn:Ta.
        + apply Qle_lteq. right. symmetry. unfold dirval. rewrite (sumq_ext _ _ (fun _ => 0%Q)); [apply sumq_0|]. intros k0 Hk0. rewrite (TR a Ta k0 Hk0). change (inject_Z 0) with 0%Q. ring.
        + assert (In (firstn (S d) (new_row n p b 1 a)) cut) as Ic. { apply in_map. rewrite ER. apply filter_In. split; [now apply in_map|now rewrite Ta]. }
          specialize (Hy _ Ic). change (0 <= dirval d (firstn (S d) (new_row n p b 1 a)) y)%Q in Hy. rewrite dirval_cut in Hy. exact Hy. }
    intros k Hk. assert (z k = 0). { apply (C3 z (fun _ => 0)); [|exact Hk]. intros i Hi. unfold affine_point. rewrite (Z0 i Hi). f_equal. symmetry. unfold HermiteSpec.combination. apply zsum_zero. intros; reflexivity. }
    pose proof (Z1 k Hk) as X. rewrite H in X. change (inject_Z 0) with 0%Q in X. symmetry in X. apply Qmult_integral in X as [X|X]; [lra|exact X]. }
  destruct (reduced_points n eqs ineqs p b rows CO points ND PT) as (ys & IP & EY). exists ys. split; [exact IP|]. rewrite <- EY. now rewrite map_length.
Qed.
(** All cases with at least one equation. *)
Lemma equations_ok : exists F0 r, (forall f, (F0 <= f)%nat -> preprocess f eqs ineqs n 1 = Ok r) /\
  match r with
  | Count0 => length points = 0%nat
  | Count1 => length points = 1%nat
  | Unbounded => False
  | Reduced p b rows => let d := length b in let cut := map (firstn (S d)) rows in
      (0 < d)%nat /\ (d <= n)%nat /\ (forall c, In c cut -> length c = S d) /\ no_escape d cut /\ exists ys, integer_points d cut ys /\ length ys = length points
  end.
Proof.
  assert (CI : ineqs = [] \/ exists a0 l0, ineqs = a0 :: l0) by (destruct ineqs; eauto). destruct CI as [EI|(a0 & l0 & EI)].
  - assert (L : length eqs = n) by now apply enough_equations. assert (P : forall f, preprocess f eqs ineqs n 1 = preprocess 0 eqs [] n 1) by (intros f; rewrite EI; reflexivity).
    destruct (solve_point_ok 0 eqs n 1 L IND) as [(E & x & Sx & U)|(E & NS)].
    + exists 0%nat, Count1. split; [intros f _; rewrite (P f); exact E|]. assert (A : In (map x (seq 0 n)) points).
      { apply PT. split; [now rewrite map_length, seq_length|]. split; [|rewrite EI; intros a []]. revert Sx. apply sat_ext. intros k Hk. now apply list_coords. }
      assert (B : forall y, In y points -> y = map x (seq 0 n)).
      { intros y Hy. apply PT in Hy as (Ly & Sy & _). apply (nth_ext _ _ 0 0); [now rewrite map_length, seq_length|]. intros k Hk. rewrite nth_map_seq by lia. apply (U (coords y) Sy). lia. }
      clear -A B ND. destruct points as [|y [|y' l]]; [destruct A|reflexivity|]. exfalso. inversion ND as [|? ? N _]. apply N. rewrite (B y) by (now left). rewrite (B y') by (right; now left). now left.
    + exists 0%nat, Count0. split; [intros f _; rewrite (P f); exact E|]. assert (X : points = []); [|now rewrite X]. apply no_points. intros x Sx _. exact (NS x Sx).
  - assert (NE : ineqs <> []) by (rewrite EI; discriminate). destruct (preprocess_ok eqs ineqs n 1 NE IND) as (F0 & r & HP & HR). exists F0, r. split; [exact HP|].
    destruct r as [| | |p b rows]; [|destruct HR|destruct HR|].
    + assert (X : points = []); [|now rewrite X]. apply no_points. destruct HR as [HR|[HR|HR]]; [intros x Sx _; exact (HR x Sx)|exact HR|]. intros x Sx Hx. assert (Ia : In a0 ineqs) by (rewrite EI; now left).
      destruct (IRR a0 Ia) as (x0 & V & E0). destruct (violated a0 x0 x V E0 Sx (Hx a0 Ia)) as (x1 & S1 & V1). specialize (HR x1 S1 a0 Ia). lia.
    + exact (reduced_ok F0 p b rows NE (HP F0 (le_n _)) HR).
Qed.
(** Without equations. *)
Lemma inequalities_ok : eqs = [] -> no_escape n ineqs /\ integer_points n ineqs points.
Proof.
  intros E. split.
  - intros y Hy. apply NODIR; [rewrite E; intros e []|exact Hy].
  - split; [exact ND|]. intros x. rewrite PT, E. split.
    + intros (Lx & _ & H). split; [exact Lx|]. intros c Hc. specialize (H c Hc). apply inject_le in H. rewrite row_value_slack in H. rewrite slack_dir. change (inject_Z 1) with 1%Q in H. change (inject_Z 0) with 0%Q in H. unfold coords in H. unfold zpoint. rewrite Qmult_1_l in H. exact H.
    + intros [Lx H]. split; [exact Lx|]. split; [intros e []|]. intros c Hc. specialize (H c Hc). rewrite slack_dir in H. apply inject_le. rewrite row_value_slack. change (inject_Z 1) with 1%Q. rewrite Qmult_1_l. exact H.
Qed.
End System.
