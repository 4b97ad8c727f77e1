(** C76: the number of integer points by the polynomial substitution, the default of count.
    Specification: CountSpec.v, ResidueSpec.v. *)
From Coq Require Import QArith Qfield Qround Lqa.
From Verif Require Import Common SmithSpec SmithProofs2 ZMat Hermite Det DetProofs RatVec RatVecSpec RatVecProofs Piped PipedSpec PipedProofs PipedProofs4 ConeSpec Irrational IntegMath Series Exponential ExpSpec ExpProofs2 CountSpec Barvinok BarvinokSpec BarvinokProofs4 BrionLinear BrionProofs BrionProofs2 BrionProofs3 EulerProofs BrionProofs4 BrionProofs5 Count CountProofs CountProofs2 CountProofs3 CountProofs4 CountProofs5 CountProofs6 CountProofs7 P_Count Residue ResidueSpec ResidueProofs ResidueProofs2 ResidueProofs3 ResidueProofs4 ResidueProofs5.
Open Scope Z_scope.

(** (-1)^n *)
Definition minus_one (n : nat) : Z := if Nat.even n then 1 else -1.
Lemma sgn_minus n : sgn n = minus_one n.
Proof.
  induction n as [|n IH]; [reflexivity|]. rewrite sgn_S, IH. unfold minus_one. rewrite Nat.even_succ, <- Nat.negb_even. destruct (Nat.even n); reflexivity.
Qed.
(** One cone: sum of z^p / prod (1 - z^r) at z_i = t^(g_i), t = 1.  Every point adds the value
    of its term times 10^10 (-1)^d, rounded down; -1 if and only if a denominator vanishes. *)
Theorem cone_residue : forall ten g coef rays pts total, rays <> [] -> pts <> [] ->
  (residue_single_cone ten g coef rays pts total = Ok None /\ exists r, In r rays /\ zdot g r = 0) \/
  ((forall r, In r rays -> zdot g r <> 0) /\
   exists qs, Forall2 (fun p q => value_at_one (map (zdot g) rays) [zdot g p] q) pts qs /\
   residue_single_cone ten g coef rays pts total = Ok (Some (total + fold_right Z.add 0 (map (fun q => Qfloor (inject_Z (ten * coef * minus_one (length rays)) * q)) qs)))).
Proof.
  intros ten g coef rays pts total NR NP. rewrite (residue_single_ok ten g coef rays pts total NR NP). destruct (Z.eq_dec (zprodl (map (zdot g) rays)) 0) as [E|E].
  - left. split; [reflexivity|]. apply exists_zero, existsb_exists in E as (x & Hx & Ex). apply in_map_iff in Hx as (r & <- & Hr). apply Z.eqb_eq in Ex. eauto.
  - right. split.
    + intros r Hr X. apply zprodl_all in E. rewrite Forall_forall in E. exact (E _ (in_map _ _ _ Hr) X).
    + exists (map (fun p => resB (map (zdot g) rays) [zdot g p] (length rays)) pts). split.
      * clear NP. induction pts as [|p pts IH]; cbn [map]; constructor; [|exact IH]. pose proof (value_exists (map (zdot g) rays) [zdot g p] E) as V. rewrite map_length in V. exact V.
      * f_equal. f_equal. f_equal. rewrite map_map. unfold zsuml. f_equal. apply map_ext. intros p. unfold fterm. apply Qfloor_comp. unfold term, resB, scal. rewrite map_length, <- sgn_minus, !inject_Z_mult. cbn [qsum]. pose proof (sgn_sq' (length rays)) as S2. set (s := inject_Z (sgn (length rays))) in *. set (q := qF (map (zdot g) rays) (zdot g p) (length rays)). transitivity (inject_Z ten * inject_Z coef * (s * s) * q)%Q; [rewrite S2; ring|ring].
Qed.
Print Assumptions cone_residue.
(** The value is unique. *)
Theorem value_at_one_unique : forall rs l q q', (forall r, In r rs -> r <> 0) -> value_at_one rs l q -> value_at_one rs l q' -> (q == q')%Q.
Proof.
  intros rs l q q' H V V'. assert (NZ : zprodl rs <> 0). { clear V V'. induction rs as [|r rs IH]; cbn [zprodl]; [lia|]. intros E. apply Z.mul_eq_0 in E as [E|E]; [exact (H r (or_introl eq_refl) E)|]. exact (IH (fun x Hx => H x (or_intror Hx)) E). }
  rewrite (value_unique rs l q NZ V), (value_unique rs l q' NZ V'). reflexivity.
Qed.
Print Assumptions value_at_one_unique.

(** C76.  As C72 for the default substitution, dual and irrational primal decomposition: the
    number returned is the number of integer points if the number of cones times the bound on
    their index is at most 5 10^9. *)
Theorem count_residue_partial : forall P n rows vs points, library_contracts P -> polytope_input P n rows vs -> q_mode P <> IrrationalAllPrimalDecomposition -> integer_points n rows points ->
  1 <= q_max_det P -> q_sv P <> SubspaceAvoidingLLL ->
  exists N, (forall r, In r N -> length r = n /\ exists k, (k < n)%nat /\ nth k r 0 <> 0) /\
  forall guesses, (forall g, In g guesses -> length g = n) -> exists F1, forall f1, (F1 <= f1)%nat -> exists F2, forall f2, (F2 <= f2)%nat ->
  match count_residue (with_fuel P f1 f2) n guesses rows vs with
  | Ok (z, cones) => cones * q_max_det P <= 5 * 10 ^ 9 -> z = Z.of_nat (length points)
  | Err e => e = Thrown /\ q_mode P <> DualDecomposition \/
             e = Exited /\ int_max < q_max_det P \/
             e = AssertFail /\ q_sv P = LatteLLL /\ ~ decreasing n (q_omega P) \/
             e = OutOfFuel /\ forall g, In g guesses -> exists r, In r N /\ zdot g r = 0
  end.
Proof.
  intros P n rows vs points (KC & OC & XG & PC & HM) (Hn & LR & UV & AV & TR) NM IP M1 NS.
  assert (DC : dual_cones n rows vs = Ok (map (fun v => (v, outer_normals n rows (coord v), [])) vs)).
  { apply mapM_all. intros v Hv. rewrite (proj1 (tight_ok n rows v (UV v Hv) LR)). reflexivity. }
  destruct (residue_cones_ok P n rows points (map coord vs) (map (fun v => (v, outer_normals n rows (coord v), [])) vs) Hn KC OC PC HM XG) as (N & NN & H); [| exact AV|exact IP| |].
  - intros c Hc. apply in_map_iff in Hc as (v & <- & Hv). cbn [fst snd]. split; [exact (UV v Hv)|exact (TR v Hv)].
  - intros x Hx. rewrite !map_map. apply lsum_ext. intros v Hv. cbn [fst snd]. rewrite <- fpol_tind; [|apply AV; now apply in_map|exact LR]. unfold hfun. destruct (q_mode P); [reflexivity|reflexivity|congruence].
  - exists N. split; [exact NN|]. intros guesses LG. destruct (H guesses LG) as (F1 & H1). exists F1. intros f1 Hf1. destruct (H1 f1 Hf1) as (F2 & H2). exists F2. intros f2 Hf2. specialize (H2 f2 Hf2). change (with_fuel P f1 f2) with (fueled P f1 f2). unfold count_residue. rewrite DC. cbn [bind]. destruct (count_residue_cones (fueled P f1 f2) n guesses _) as [[z u]|e]; cbn [outcome_ok] in H2.
    + intros B. apply H2; [lia|exact NS|exact B].
    + destruct H2 as [[H2|[[H2 H3]|H2]]|H2]; try tauto. right. left. split; [exact H2|]. destruct H3 as [H3|[H3|H3]]; [contradiction|lia|exact H3].
Qed.
Print Assumptions count_residue_partial.

(** Without the bound the claim fails: 5 10^9 times the same cone with coefficients 1 and -1,
    which stand for no points at all, give the number 1. *)
Fixpoint feed_cones (g : list Z) (cs : list (Z * list (list Z) * list (list Z))) (total : Z) : outcome (option Z) :=
  match cs with
  | [] => Ok (Some total)
  | (coef, rays, pts) :: cs' => bind (residue_single_cone ten_power g coef rays pts total) (fun o => match o with None => Ok None | Some t => feed_cones g cs' t end)
  end.
Definition cancelling (k : nat) : list (Z * list (list Z) * list (list Z)) := concat (repeat [(1, [[1;0];[0;1]], [[0;0]]); (-1, [[1;0];[0;1]], [[0;0]])] k).
Lemma cancelling_feed k : forall t, feed_cones [1;3] (cancelling k) t = Ok (Some (t - Z.of_nat k)).
Proof.
  induction k as [|k IH]; intros t; [cbn; f_equal; f_equal; lia|]. unfold cancelling. cbn [repeat concat app]. fold (cancelling k). cbn [feed_cones].
  assert (R1 : forall t, residue_single_cone ten_power [1;3] 1 [[1;0];[0;1]] [[0;0]] t = Ok (Some (t + 2222222222))) by (intros; reflexivity).
  assert (R2 : forall t, residue_single_cone ten_power [1;3] (-1) [[1;0];[0;1]] [[0;0]] t = Ok (Some (t + -2222222223))) by (intros; reflexivity).
  rewrite R1. cbn [bind]. rewrite R2. cbn [bind]. rewrite IH. do 2 f_equal. lia.
Qed.
Theorem residue_rounding_refuted : exists k t, feed_cones [1;3] (cancelling k) 0 = Ok (Some t) /\ round_total ten_power t = 1.
Proof.
  exists (Z.to_nat (5 * 10 ^ 9)), (0 - Z.of_nat (Z.to_nat (5 * 10 ^ 9))). split; [apply cancelling_feed|]. rewrite Z2Nat.id by lia. vm_compute. reflexivity.
Qed.
Print Assumptions residue_rounding_refuted.
(** 2x + 3y <= 7: see [triangle_input] for the hypotheses. *)
Example triangle_residue : count_residue (sample_params DualDecomposition) 2 [[1;0];[3;5]] (triangle_rows 7) triangle_vertices = Ok (8, 6) /\ count_residue (sample_params IrrationalPrimalDecomposition) 2 [[7;5]] (triangle_rows 7) triangle_vertices = Ok (8, 5).
Proof. vm_compute. auto. Qed.
Example pyramid_residue : count_residue (sample_params DualDecomposition) 3 [[1;0;0];[3;7;17]] pyramid_rows pyramid_vertices = Ok (11, 38).
Proof. vm_compute. reflexivity. Qed.
(** t^2 / ((1-t)(1-t^3)), constant term -1/9 at t = 1 + s: s^2 / ((1-t)(1-t^3)) = 1/(3+3s+s^2). *)
Example value_sample : residue_single_cone 9 [1;3] 1 [[1;0];[0;1]] [[2;0]] 0 = Ok (Some (-1)).
Proof. vm_compute. reflexivity. Qed.
