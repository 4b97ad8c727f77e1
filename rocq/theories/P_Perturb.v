(** C44, C65: integration of powers of linear forms over tangent cones. *)
From Coq Require Import QArith Permutation.
From Verif Require Import Common Rational RationalSpec Trie Integ IntegSpec ZMat Det Perturb PerturbSpec PerturbProofs PerturbProofs3 PerturbProofs4 PerturbProofs6 PerturbProofs7.
Open Scope Z_scope.

Lemma Forall2_len {A B} {R : A -> B -> Prop} {l r} : Forall2 R l r -> length l = length r.
Proof. induction 1; cbn; auto. Qed.
(** C44.  Whenever some factor has no constant term, merging succeeds and leaves the
    product unchanged at every w; the factors without constant term are gathered in the
    first entry only. *)
Theorem merging_keeps_product : forall a, Forall (fun d => lp_pow d = 0) a -> (exists d, In d a /\ lp_const d = 0) ->
  exists z ds, update_powers a = Ok (z :: ds) /\ length (z :: ds) = length a /\ lp_const z = 0 /\ 1 <= lp_pow z /\
    Forall (fun d => lp_const d = 0 -> lp_pow d <= 0) ds /\
    forall w, (merged_at w (map (fun d => (lp_const d, lp_eps d, lp_pow d)) (z :: ds)) == product_at w (map (fun d => (lp_const d, lp_eps d)) a))%Q.
Proof. exact merge_product. Qed.
Print Assumptions merging_keeps_product.
(** Without such a factor the assertion fires (the caller never asks then). *)
Theorem merging_needs_zero : forall a, Forall (fun d => lp_pow d = 0) a -> Forall (fun d => lp_const d <> 0) a -> update_powers a = Err AssertFail.
Proof.
  intros a F N. apply update_powers_none; auto. unfold zeros. induction N as [|d a Hd N IH]; cbn; auto. destruct (Z.eqb_spec (lp_const d) 0); [contradiction|]. apply IH. exact (Forall_inv_tail F).
Qed.
Print Assumptions merging_needs_zero.
Example merging_sample : update_powers [mkLp 3 1 0; mkLp 0 5 0; mkLp 2 7 0; mkLp 3 1 0; mkLp 0 (-2) 0] =
  Ok [mkLp 0 (-10) 2; mkLp 3 1 2; mkLp 2 7 1; mkLp 3 1 (-1); mkLp 0 (-2) (-1)].
Proof. vm_compute. reflexivity. Qed.

(** C65.  The integral over a polytope given by simplicial tangent cones: for each form
    some direction e leaves no zero denominator at a cone whose vertex has non-zero
    value, and the result is  sum coef * (-1)^n/(n+m)! * (sum over the cones of |det| times
    the constant term in w of <l+e*w, v>^(n+m) / prod <l+e*w, ray>).  The only other
    outcome is that for some form all points drawn so far have been blocked. *)
Definition unblocked (l e : list Z) (c : list Z * list (list Z)) : Prop :=
  dot (fst c) l = 0 \/ forall r, In r (snd c) -> dot l r = 0 -> dot e r <> 0.
Theorem cone_integral : forall fuel n rs cones ts, n <> O -> cones <> [] ->
  Forall (fun c => length (pc_rays c) = n /\ Forall (fun r => length r = n) (pc_rays c)) cones -> ts <> [] ->
  Forall (fun t => (1 <= t_deg t /\ t_deg t + Z.of_nat n < 2 ^ 20) /\ lowest_terms (t_coef t) /\ length (t_exps t) = n) ts ->
  let vr := map (fun c => (pc_vertex c, pc_rays c)) cones in
  (exists ans es, integral_lawrence fuel n rs cones ts = Ok ans /\ lowest_terms ans /\
     Forall2 (fun t e => Forall (unblocked (t_exps t) e) vr) ts es /\
     (value ans == sum_over (fun p => value (t_coef (fst p)) * ((if Nat.odd n then -1 else 1) *
        cone_sum n (Z.to_nat (t_deg (fst p))) (t_exps (fst p)) (snd p) vr / inject_Z (zfact (n + Z.to_nat (t_deg (fst p)))))) (combine ts es))%Q) \/
  (integral_lawrence fuel n rs cones ts = Err OutOfFuel /\
   exists t k, In t ts /\ forall i, (i < fuel)%nat -> ~ Forall (unblocked (t_exps t) (moment n (Z.of_nat (rs (k + i)%nat) mod 100) 1)) vr).
Proof.
  intros fuel n rs cones ts Hn NE HW NT HT vr.
  assert (UB : forall l e c, ~ blocked l e c <-> unblocked l e (pc_vertex c, pc_rays c)).
  { intros l e c. unfold blocked, unblocked. cbn [fst snd]. split.
    - intros H. destruct (Z.eq_dec (dot (pc_vertex c) l) 0) as [E|E]; [now left|]. right. intros r Hr D0 E0. apply H. split; auto. exists r. auto.
    - intros [H|H] [B (r & R1 & R2 & R3)]; [contradiction|]. exact (H r R1 R2 R3). }
  destruct (lawrence_run fuel n rs cones ts Hn (conj NE HW) NT HT) as [(ans & es & H1 & H2 & H3 & H4)|(H1 & t & k & H2 & H3)].
  - left. exists ans, es. split; auto. split; auto. split; [|exact H4]. clear - H3 UB. induction H3; constructor; auto. unfold vr. apply Forall_map. eapply Forall_impl; [|exact H]. intros c. apply UB.
  - right. split; auto. exists t, k. split; auto. intros i Hi F. specialize (H3 i Hi). apply Exists_exists in H3 as (c & C1 & C2).
    rewrite Forall_forall in F. assert (In (pc_vertex c, pc_rays c) vr) as I by (unfold vr; now apply (in_map (fun c => (pc_vertex c, pc_rays c)))). apply F, UB in I. contradiction.
Qed.
Print Assumptions cone_integral.
(** For a simplex, with its tangent cones in any order, rays of any lengths in any order,
    the result is the integral: the same as the triangulation method returns (C16). *)
Theorem cone_integral_simplex : forall fuel n rs vs idx cones ts ans, n <> O -> length vs = S n -> Forall (fun v => length v = n) vs ->
  Permutation idx (seq 0 (S n)) -> Forall2 (tangent_cone vs) idx (map (fun c => (pc_vertex c, pc_rays c)) cones) -> ts <> [] ->
  Forall (fun t => (1 <= t_deg t /\ t_deg t + Z.of_nat n < 2 ^ 20) /\ lowest_terms (t_coef t) /\ length (t_exps t) = n) ts ->
  integral_lawrence fuel n rs cones ts = Ok ans ->
  lowest_terms ans /\ (value ans == sum_over (fun t => value (t_coef t) * form_integral (edge_volume vs) n vs (t_exps t) (Z.to_nat (t_deg t))) ts)%Q.
Proof.
  intros fuel n rs vs idx cones ts ans Hn L F PI F2 NT HT E.
  refine (lawrence_simplex fuel n rs vs idx cones ts ans Hn L F _ PI F2 NT HT E). split.
  - intros ->. inversion F2; subst. apply Permutation_length in PI. discriminate.
  - assert (BI : forall i, In i idx -> (i < S n)%nat) by (intros i Hi; apply (Permutation_in i PI), in_seq in Hi; lia).
    clear - F2 L F BI. remember (map (fun c => (pc_vertex c, pc_rays c)) cones) as vr. revert cones Heqvr. induction F2 as [|i c idx vr (C1 & ws & C2 & C3) HF IH]; intros [|p cones] EQ; try discriminate; constructor.
    + injection EQ as -> _. cbn [fst snd] in *. assert (LV : length (pc_vertex p) = n). { rewrite C1. rewrite Forall_forall in F. apply F, nth_In. rewrite L. apply BI. now left. }
      split.
      * rewrite (Forall2_len C3), (Permutation_length C2). unfold without. rewrite app_length, firstn_length, skipn_length. specialize (BI i (or_introl eq_refl)). lia.
      * clear - C3 LV. induction C3 as [|r w rays ws [H _] HF IH]; constructor; auto. congruence.
    + injection EQ as _ EQ. apply IH; auto. intros j Hj. apply BI. now right.
Qed.
Print Assumptions cone_integral_simplex.
(** The unit square: x integrates to 1/2, (x+y)^2/2 to 7/12; x needs a perturbation. *)
Definition square : list pcone :=
  [mkPcone [0;0] [[1;0];[0;1]]; mkPcone [1;0] [[-1;0];[0;1]]; mkPcone [0;1] [[1;0];[0;-1]]; mkPcone [1;1] [[-1;0];[0;-1]]].
Example cone_integral_sample :
  integral_lawrence 3 2 (fun k => k) square [mkTerm (mkRat 1 1) [1;0] 1; mkTerm (mkRat 1 1) [1;1] 2] = Ok (mkRat 13 12).
Proof. vm_compute. reflexivity. Qed.
Definition triangle_cones : list pcone := [mkPcone [3;0] [[-1;1];[-1;0]]; mkPcone [0;0] [[1;0];[0;1]]; mkPcone [0;3] [[1;-1];[0;-1]]].
Example cone_integral_simplex_sample :
  Permutation [1;0;2]%nat (seq 0 3) /\ Forall2 (tangent_cone [[0;0];[3;0];[0;3]]) [1;0;2]%nat (map (fun c => (pc_vertex c, pc_rays c)) triangle_cones) /\
  integral_lawrence 3 2 (fun k => k) triangle_cones [mkTerm (mkRat 1 1) [1;2] 2; mkTerm (mkRat 5 2) [1;1] 3] = Ok (mkRat 351 8).
Proof.
  split; [cbn; constructor|]. split; [|vm_compute; reflexivity].
  unfold triangle_cones. cbn [map pc_vertex pc_rays]. repeat constructor; cbn [fst snd nth].
  - exists [[0;3];[0;0]]. split; [unfold without; cbn; constructor|]. repeat constructor; exists 3; (split; [lia|]); intros [|[|[|k]]]; reflexivity.
  - exists [[3;0];[0;3]]. split; [reflexivity|]. repeat constructor; exists 3; (split; [lia|]); intros [|[|[|k]]]; reflexivity.
  - exists [[3;0];[0;0]]. split; [unfold without; cbn; constructor|]. repeat constructor; exists 3; (split; [lia|]); intros [|[|[|k]]]; reflexivity.
Qed.
(** REFUTED: the search for a direction need not end, whatever rand() returns: it only
    tries the 100 points of the moment curve.  The polytope is the prism over the convex
    polygon with vertices (-k(k-1)/2, k), k = 0..100, and the form is z; directions that
    work exist. *)
Definition prism : list pcone :=
  flat_map (fun h => map (fun k => let k := Z.of_nat k in
    mkPcone [- (k * (k - 1) / 2); k; h]
      [if k =? 100 then [99; -2; 0] else [- k; 1; 0]; if k =? 0 then [-99; 2; 0] else [k - 1; -1; 0]; [0; 0; 1 - 2 * h]]) (seq 0 101)) [0; 1].
Theorem perturbation_search_refuted :
  Forall (fun c => length (pc_rays c) = 3%nat /\ Forall (fun r => length r = 3%nat) (pc_rays c)) prism /\
  Forall (fun c => Z.abs (det 3 (ray_matrix (pc_rays c))) <> 0) prism /\
  Forall (unblocked [0;0;1] [1000;1;0]) (map (fun c => (pc_vertex c, pc_rays c)) prism) /\
  forall fuel rs, integral_lawrence fuel 3 rs prism [mkTerm (mkRat 1 1) [0;0;1] 1] = Err OutOfFuel.
Proof.
  assert (W : Forall (fun c => length (pc_rays c) = 3%nat /\ Forall (fun r => length r = 3%nat) (pc_rays c)) prism).
  { apply Forall_forall. intros c Hc. unfold prism in Hc. apply in_flat_map in Hc as (h & _ & Hc). apply in_map_iff in Hc as (k & <- & _). cbn [pc_rays length]. split; auto. repeat constructor; destruct (_ =? _); reflexivity. }
  split; [exact W|]. split.
  { assert (H : forallb (fun c => negb (Z.abs (det 3 (ray_matrix (pc_rays c))) =? 0)) prism = true) by (vm_compute; reflexivity).
    rewrite forallb_forall in H. apply Forall_forall. intros c Hc. apply H in Hc. now apply negb_true_iff, Z.eqb_neq in Hc. }
  split.
  { assert (H : forallb (fun c => (dot (pc_vertex c) [0;0;1] =? 0) || forallb (fun r => negb (dot [0;0;1] r =? 0) || negb (dot [1000;1;0] r =? 0)) (pc_rays c)) prism = true) by (vm_compute; reflexivity).
    rewrite forallb_forall in H. apply Forall_map, Forall_forall. intros c Hc. apply H in Hc. unfold unblocked. cbn [fst snd]. apply orb_prop in Hc as [Hc|Hc]; [left; now apply Z.eqb_eq|right].
    rewrite forallb_forall in Hc. intros r Hr E. specialize (Hc r Hr). rewrite E in Hc. cbn [Z.eqb negb orb] in Hc. now apply negb_true_iff, Z.eqb_neq in Hc. }
  intros fuel rs. unfold integral_lawrence. set (ts := [_]). assert (SC : exists cs, set_cones prism = Ok (cs, 3%nat) /\ map ct_cone cs = prism /\ Forall (fun c => length (ct_dots c) = 3%nat) cs).
  { eexists. split; [unfold set_cones, prism; cbn [flat_map]; reflexivity|]. split; [rewrite map_map; cbn [ct_cone]; apply map_id|]. apply Forall_map, Forall_forall. reflexivity. }
  destruct SC as (cs & -> & CC & CL). cbn [bind fst snd ts lawrence_forms t_exps].
  rewrite (find_perturbation_blocked 3 [0;0;1] 3 rs fuel 0 cs); auto.
  - apply (proj1 (Forall_map ct_cone (wfcone 3) cs)). rewrite CC. exact W.
  - intros i. rewrite CC. pose proof (Z.mod_pos_bound (Z.of_nat (rs i)) 100 ltac:(lia)) as B. set (t := Z.of_nat (rs i) mod 100) in *. clearbody t.
    apply Exists_exists. exists (mkPcone [- (t * (t - 1) / 2); t; 1] [[- t; 1; 0]; if t =? 0 then [-99; 2; 0] else [t - 1; -1; 0]; [0; 0; -1]]). split.
    + unfold prism. apply in_flat_map. exists 1. split; [right; left; reflexivity|]. apply in_map_iff. exists (Z.to_nat t). split; [|apply in_seq; lia].
      rewrite Z2Nat.id by lia. cbv zeta. destruct (Z.eqb_spec t 100); [lia|]. reflexivity.
    + unfold blocked. cbn [pc_vertex pc_rays dot]. split; [lia|]. exists [- t; 1; 0]. split; [now left|]. cbn [moment dot]. split; [lia|]. destruct (t mod 2 =? 0); lia.
Qed.
Print Assumptions perturbation_search_refuted.
