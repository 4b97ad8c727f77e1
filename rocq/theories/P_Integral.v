(** C65: integration over tangent cones gives the integral over the polytope. *)
From Coq Require Import QArith Qabs Qfield Lqa Permutation.
From Verif Require Import Common Rational RationalSpec Trie Integ IntegSpec ZMat Det Piped PipedSpec PipedProofs PipedProofs3 ConeSpec CountSpec IntegralSpec IntegMath IntegProofs5 Perturb PerturbSpec PerturbProofs4 LimitProofs IntegralProofs3 IntegralProofs6 P_Perturb P_Count.
Open Scope Z_scope.

(** The polytope { x : b + <a,x> >= 0 for the rows (b,a) } with integer vertices vs; the
    cones given to the program are, in any order, the simplicial cones tri v into which the
    tangent cone at v is cut, for all vertices v.  Whatever rand() returns, a result that is
    returned is the sum of coef * (integral of <l,x>^m over the polytope) / m! over the terms
    of the sum of linear forms; the integrals are limits of Riemann sums. *)
Theorem cone_integral_polytope : forall fuel n rs rows vs tri cones ts ans, n <> O -> (forall c, In c rows -> length c = S n) -> bounded n rows ->
  (forall v, In v vs -> length v = n) -> all_vertices n rows (map zpoint vs) -> (forall v, In v vs -> splits_tangent_cone n rows v (tri v)) ->
  Permutation (map (fun c => (pc_vertex c, pc_rays c)) cones) (flat_map (fun v => map (pair v) (tri v)) vs) -> cones <> [] -> ts <> [] ->
  Forall (fun t => (1 <= t_deg t /\ t_deg t + Z.of_nat n < 2 ^ 20) /\ lowest_terms (t_coef t) /\ length (t_exps t) = n) ts ->
  integral_lawrence fuel n rs cones ts = Ok ans ->
  exists Is, lowest_terms ans /\ Forall2 (fun t I => is_integral n rows (t_exps t) (Z.to_nat (t_deg t)) I) ts Is /\
    (value ans == sum_over (fun p => value (t_coef (fst p)) * (snd p / inject_Z (zfact (Z.to_nat (t_deg (fst p)))))) (combine ts Is))%Q.
Proof. intros fuel n rs rows vs tri cones ts ans Hn LR BD LV AV SP P NC NT HT E. exact (polytope_run n rows vs tri Hn LR BD LV AV SP fuel rs cones ts ans P NC NT HT E). Qed.
Print Assumptions cone_integral_polytope.
(** The integral is determined by the polytope and the form. *)
Theorem integral_unique : forall n rows l m I J, is_integral n rows l m I -> is_integral n rows l m J -> (I == J)%Q.
Proof.
  intros n rows l m I J HI HJ. destruct (Qeq_dec I J) as [E|E]; [exact E|exfalso]. set (d := Qabs (I - J)). assert (Hd : (0 < d)%Q).
  { unfold d. destruct (Qlt_le_dec 0 (Qabs (I - J))) as [L|L]; [exact L|]. exfalso. apply E. pose proof (Qle_Qabs (I - J)). pose proof (Qle_Qabs (- (I - J))) as H2. rewrite Qabs_opp in H2. lra. }
  destruct (HI (d * (1#3))%Q ltac:(lra)) as (K1 & P1 & H1). destruct (HJ (d * (1#3))%Q ltac:(lra)) as (K2 & P2 & H2). set (k := Z.max K1 K2).
  destruct (H1 k ltac:(lia)) as (p1 & (N1 & I1) & D1). destruct (H2 k ltac:(lia)) as (p2 & (N2 & I2) & D2).
  assert (PP : Permutation p1 p2) by (apply NoDup_Permutation; [exact N1|exact N2|]; intros x; now rewrite I1, I2).
  assert (R : (riemann_sum n l m k p1 == riemann_sum n l m k p2)%Q) by (unfold riemann_sum; rewrite !sum_over_qsum; now rewrite (qsum_perm _ _ _ PP)).
  rewrite R in D1. set (r := riemann_sum n l m k p2) in *. pose proof (Qabs_triangle (I - r) (r - J)) as T. setoid_replace (I - r + (r - J))%Q with (I - J)%Q in T by ring. rewrite (Qabs_Qminus I r) in T. fold d in T. lra.
Qed.
Print Assumptions integral_unique.
(** The unit square: all hypotheses hold, and 13/12 is the integral of x + (x+y)^2/2. *)
Definition square_rows : list (list Z) := [[0;1;0];[0;0;1];[1;-1;0];[1;0;-1]].
Definition square_tri (v : list Z) : list (list (list Z)) := [[[1 - 2 * nth 0 v 0; 0];[0; 1 - 2 * nth 1 v 0]]].
Definition square_points : list (list Z) := [[0;0];[1;0];[0;1];[1;1]].
Ltac corner := try change (1 - 2 * 0)%Z with 1%Z in *; try change (1 - 2 * 1)%Z with (-1)%Z in *; unfold inject_Z in *.
Example square_input : (forall c, In c square_rows -> length c = 3%nat) /\ bounded 2 square_rows /\ all_vertices 2 square_rows (map zpoint square_points) /\
  (forall v, In v square_points -> splits_tangent_cone 2 square_rows v (square_tri v)) /\
  Permutation (map (fun c => (pc_vertex c, pc_rays c)) square) (flat_map (fun v => map (pair v) (square_tri v)) square_points).
Proof.
  assert (PO : forall x, in_polyhedron 2 square_rows x <-> (0 <= x 0%nat <= 1 /\ 0 <= x 1%nat <= 1)%Q).
  { intros x. split.
    - intros H. pose proof (H [0;1;0] ltac:(now left)) as H1. pose proof (H [0;0;1] ltac:(right; now left)) as H2. pose proof (H [1;-1;0] ltac:(right; right; now left)) as H3. pose proof (H [1;0;-1] ltac:(right; right; right; now left)) as H4. rewrite slack2 in *. unfold inject_Z in *. split; split; lra.
    - intros [[A B] [C D]] c [<-|[<-|[<-|[<-|[]]]]]; rewrite slack2; unfold inject_Z; lra. }
  split; [intros c [<-|[<-|[<-|[<-|[]]]]]; reflexivity|]. split; [|split; [split; [|split]|split]].
  - exists 1. intros x H. apply PO in H. intros [|[|k]] Hk; [| |lia]; unfold inject_Z; lra.
  - assert (V : forall a b, (a = 0 \/ a = 1) -> (b = 0 \/ b = 1) -> is_vertex 2 square_rows (zpoint [a;b])).
    { intros a b HA HB. split; [apply PO; unfold zpoint; cbn [nth]; destruct HA as [-> | ->], HB as [-> | ->]; unfold inject_Z; lra|]. intros y Hy.
      assert (Y0 : (y 0%nat == 0)%Q) by (destruct HA as [-> | ->]; [pose proof (Hy [0;1;0] ltac:(now left)) as Y|pose proof (Hy [1;-1;0] ltac:(right; right; now left)) as Y]; rewrite slack2 in Y; unfold zpoint in Y; cbn [nth sumq] in Y; unfold inject_Z in Y; specialize (Y ltac:(lra)); lra).
      assert (Y1 : (y 1%nat == 0)%Q) by (destruct HB as [-> | ->]; [pose proof (Hy [0;0;1] ltac:(right; now left)) as Y|pose proof (Hy [1;0;-1] ltac:(right; right; right; now left)) as Y]; rewrite slack2 in Y; unfold zpoint in Y; cbn [nth sumq] in Y; unfold inject_Z in Y; specialize (Y ltac:(lra)); lra).
      intros [|[|k]] Hk; [exact Y0|exact Y1|lia]. }
    intros v Hv. cbn [map square_points] in Hv. destruct Hv as [<-|[<-|[<-|[<-|[]]]]]; apply V; auto.
  - intros v [V1 V2]. apply PO in V1 as [[A B] [C D]].
    assert (X : forall i, (i < 2)%nat -> (v i == 0 \/ v i == 1)%Q).
    { intros i Hi. destruct (Qeq_dec (v i) 0) as [E|E]; [now left|]. destruct (Qeq_dec (v i) 1) as [E1|E1]; [now right|]. exfalso. assert (Y : (1 == 0)%Q); [|discriminate].
      transitivity ((fun j => if (j =? i)%nat then 1%Q else 0%Q) i); [cbn beta; now rewrite Nat.eqb_refl|]. apply (V2 (fun j => if (j =? i)%nat then 1%Q else 0%Q)); [|exact Hi]. intros c Hc T.
      destruct i as [|[|i]]; [| |lia]; cbn [square_rows In] in Hc; destruct Hc as [<-|[<-|[<-|[<-|[]]]]]; rewrite slack2 in T; cbn [sumq Nat.eqb nth]; unfold inject_Z in *; try ring; exfalso; first [apply E; lra|apply E1; lra]. }
    destruct (X 0%nat ltac:(lia)) as [E0|E0], (X 1%nat ltac:(lia)) as [E1|E1]; [exists (zpoint [0;0])|exists (zpoint [0;1])|exists (zpoint [1;0])|exists (zpoint [1;1])]; (split; [cbn [map square_points In]; tauto|]); intros [|[|k]] Hk; try lia; [exact E0|exact E1|exact E0|exact E1|exact E0|exact E1|exact E0|exact E1].
  - intros i j Hij Hj S. cbn [map square_points length] in Hj. pose proof (S 0%nat ltac:(lia)) as S0. pose proof (S 1%nat ltac:(lia)) as S1. cbn [map square_points] in S0, S1.
    destruct i as [|[|[|[|i]]]], j as [|[|[|[|j]]]]; try lia; cbn [nth] in S0, S1; try discriminate S0; discriminate S1.
  - assert (G : forall a b, (a = 0 \/ a = 1) -> (b = 0 \/ b = 1) -> splits_tangent_cone 2 square_rows [a;b] (square_tri [a;b])).
    { intros a b HA HB. assert (SQ : (1 - 2 * a) * (1 - 2 * a) = 1 /\ (1 - 2 * b) * (1 - 2 * b) = 1) by (destruct HA as [-> | ->], HB as [-> | ->]; split; reflexivity). destruct SQ as [SA SB].
      unfold splits_tangent_cone, square_tri. cbn [nth]. split; [|split].
      - intros T [<-|[]]. split; [split; [reflexivity|repeat constructor]|]. intros f Hf. pose proof (Hf 0%nat ltac:(lia)) as F0. pose proof (Hf 1%nat ltac:(lia)) as F1. unfold vat in F0, F1. cbn [sumz nth] in F0, F1. intros [|[|k]] Hk; [| |lia]; destruct HA as [-> | ->], HB as [-> | ->]; lia.
      - intros x. split.
        + intros H. eexists. split; [left; reflexivity|].
          assert (HX : (0 <= inject_Z (1 - 2 * a) * (x 0%nat - inject_Z a))%Q) by (destruct HA as [-> | ->]; [pose proof (H [0;1;0] ltac:(now left)) as Y|pose proof (H [1;-1;0] ltac:(right; right; now left)) as Y]; rewrite !slack2 in Y; unfold zpoint in Y; cbn [nth] in Y; corner; specialize (Y ltac:(lra)); lra).
          assert (HY : (0 <= inject_Z (1 - 2 * b) * (x 1%nat - inject_Z b))%Q) by (destruct HB as [-> | ->]; [pose proof (H [0;0;1] ltac:(right; now left)) as Y|pose proof (H [1;0;-1] ltac:(right; right; right; now left)) as Y]; rewrite !slack2 in Y; unfold zpoint in Y; cbn [nth] in Y; corner; specialize (Y ltac:(lra)); lra).
          exists (fun k => if (k =? 0)%nat then (inject_Z (1 - 2 * a) * (x 0%nat - inject_Z a))%Q else (inject_Z (1 - 2 * b) * (x 1%nat - inject_Z b))%Q). split; [intros [|[|k]] Hk; [exact HX|exact HY|lia]|].
          intros i Hi. unfold zpoint, vat. cbn [sumq nth Nat.eqb]. destruct HA as [-> | ->], HB as [-> | ->]; destruct i as [|[|i]]; try lia; cbn [nth]; corner; ring.
        + intros (T & [<-|[]] & f & F1 & F2). pose proof (F1 0%nat ltac:(lia)) as A0. pose proof (F1 1%nat ltac:(lia)) as A1. pose proof (F2 0%nat ltac:(lia)) as B0. pose proof (F2 1%nat ltac:(lia)) as B1. unfold zpoint, vat in B0, B1. cbn [sumq nth] in B0, B1. clear F1 F2.
          intros c Hc T. cbn [square_rows In] in Hc. destruct Hc as [<-|[<-|[<-|[<-|[]]]]]; rewrite slack2 in *; unfold zpoint in T; cbn [nth] in T; destruct HA as [-> | ->], HB as [-> | ->]; corner; lra.
      - intros i j x Hij Hj. cbn [length] in Hj. lia. }
    intros v Hv. cbn [square_points In] in Hv. destruct Hv as [<-|[<-|[<-|[<-|[]]]]]; apply G; auto.
  - cbn. constructor; constructor; constructor; constructor; constructor.
Qed.
