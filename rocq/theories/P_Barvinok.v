(** Property theorems about the signed decomposition of cones (C29, C30). *)
From Coq Require Import QArith.
From Verif Require Import Common Hermite Det RatVec RatVecSpec Piped PipedSpec PipedProofs PipedProofs4 ConeSpec ConeProofs Irrational IrrationalProofs IrrationalProofs3 Barvinok BarvinokSpec BarvinokProofs2 BarvinokProofs3 BarvinokProofs4.
Open Scope Z_scope.

(** C29.  One step on a cone with independent rays, with whatever non-zero vector was chosen
    and whatever relation NTL returned: each child is again such a cone, of smaller index and
    coefficient plus or minus the parent's; and for every apex v and every point x on none of
    the bounding hyperplanes, the signed number of children containing x is the coefficient of
    the parent if x is in the parent and 0 if not. *)
Theorem decomposition_step : forall sv omega ker n rays c coef ch dets,
  (0 < n)%nat -> n_vectors n rays -> lin_indep n rays -> det_and_facets n rays = Ok c -> omega_contract omega -> relation_contract ker ->
  step sv omega ker n (mkB coef c) = Ok (Some (ch, dets)) ->
  (forall d, In (Some d) ch -> n_vectors n (s_rays (b_cone d)) /\ lin_indep n (s_rays (b_cone d)) /\ Z.abs (det n (vat (s_rays (b_cone d)))) < Z.abs (det n (vat rays)) /\ Z.abs (b_coef d) = Z.abs coef) /\
  (forall v x, ~ on_wall n v rays x -> (forall d, In (Some d) ch -> ~ on_wall n v (s_rays (b_cone d)) x) ->
   counts_to (fun r => in_cone n v r x) (flat_map (fun o => match o with None => [] | Some d => [(b_coef d, s_rays (b_cone d))] end) ch) coef (in_cone n v rays x)).
Proof.
  intros sv omega ker n rays c coef ch dets Hn NV LI E OC KC ST. pose proof (indep_det n rays LI) as D0. destruct (det_and_facets_full n rays NV D0) as (c' & E' & FC & ER). rewrite E in E'. injection E' as <-. subst rays.
  pose proof (step_spec sv omega ker n Hn KC OC coef c FC) as SS. rewrite ST in SS. destruct SS as (z & [Lz PZ] & -> & DEC & [LC CH]). pose proof FC as [OK _]. pose proof OK as (_ & ED & D0' & _).
  assert (KID : forall d, In (Some d) ch -> exists k, (k < n)%nat /\ nth k ch None = Some d /\ cone_full n (b_cone d) /\ s_rays (b_cone d) = upd (s_rays c) k z /\ Z.abs (b_coef d) = Z.abs coef /\ det n (ent (upd (s_rays c) k z)) <> 0).
  { intros d Hd. apply (In_nth _ _ None) in Hd as (k & Hk & Ek). rewrite LC in Hk. exists k. split; auto. split; auto. destruct (CH k Hk) as [C0 C1]. destruct (Z.eq_dec (det n (ent (upd (s_rays c) k z))) 0) as [Z0|NZ]; [rewrite C0 in Ek by auto; discriminate|]. destruct (C1 NZ) as (c1 & E1 & F1 & R1). rewrite E1 in Ek. injection Ek as <-. cbn [b_cone b_coef]. split; auto. split; auto. split; auto.
    assert (AS : forall a, a <> 0 -> Z.abs (Z.sgn a) = 1) by (intros a Na; destruct a; [lia|reflexivity|reflexivity]). rewrite !Z.abs_mul, !AS by auto. lia. }
  split.
  - intros d Hd. destruct (KID d Hd) as (k & Hk & Ek & [OKd _] & Rd & Cd & NZ). split; [exact (proj1 OKd)|]. rewrite Rd. split; [now apply det_indep|]. split; auto. specialize (DEC k Hk). rewrite replaced_nth in DEC by auto. rewrite ED in DEC. exact DEC.
  - intros v x OW OWC.
    pose proof (step_count n c coef z x v ch Hn OK Lz PZ LC CH OW (fun k d Ek => OWC d ltac:(rewrite <- Ek; apply nth_In; destruct (Nat.lt_ge_cases k (length ch)) as [H|H]; [exact H|rewrite nth_overflow in Ek by auto; discriminate]))) as SC.
    assert (CNT : signed_count (fun r => in_cone n v r x) (coned ch) (if ind n v x c then coef else 0)).
    { rewrite <- SC, <- LC. apply signed_count_list. intros k Hk. destruct (nth k ch None) as [d|] eqn:Ek; [|reflexivity].
      assert (HI : In (Some d) ch) by (rewrite <- Ek; now apply nth_In). destruct (KID d HI) as (_ & _ & _ & [OKd _] & _). pose proof (ind_iff n v x (b_cone d) OKd) as II. rewrite LC. destruct (ind n v x (b_cone d)); [left; split; auto; now apply II|right; split; auto; intros H; apply II in H; discriminate]. }
    pose proof (ind_iff n v x c OK) as II. split; intros H; [apply II in H; rewrite H in CNT; exact CNT|]. destruct (ind n v x c); [exfalso; apply H; now apply II|exact CNT].
Qed.
Print Assumptions decomposition_step.

(** C30.  The recursive decomposition of a cone with independent rays, apex v, for each of the
    three modes, any caller function, any non-negative maximal index.  It terminates (fuel
    above the index is enough); failures are the checks of the code: an exception if some cone
    of an irrational decomposition is not irrational, exit for the subspace-avoiding choice,
    an assertion if the second choice of short vector does not lower the index.  Otherwise the
    cones passed to the caller are simplicial, of index at most the maximum (or, when the
    subspace-avoiding choice fails, 200000) with coefficient plus or minus the given one; if
    the caller never answers -1, the signed number of them containing x is the coefficient if
    x is in the cone and 0 if not, for all x off finitely many hyperplanes through the apex, and
    in the irrational modes these hyperplanes contain no integer point at all.  In dual
    decomposition the cones passed on are polar to those that decompose the cone.  If the
    caller answers -1 it is not called again and -1 is returned; the counters agree. *)
Theorem signed_decomposition : forall mode sv omega ker max_det n v cons coef rays c st fuel,
  (0 < n)%nat -> n_vectors n rays -> lin_indep n rays -> det_and_facets n rays = Ok c -> omega_contract omega -> relation_contract ker ->
  (exists P k, (P = nonzero \/ P = positive) /\ reachable P k v) -> dim v = n -> 0 <= max_det -> Z.abs (det n (vat rays)) < Z.of_nat fuel ->
  match dfs fuel mode sv omega ker max_det n v cons (mkB coef c) st with
  | Ok (r, st') => exists new H,
      delivered st' = delivered st ++ new /\ proper_normals n H /\
      (mode <> DualDecomposition -> forall x, off_hyperplanes n (coord v) H (zpoint x)) /\
      (r <> -1 -> forall x, off_hyperplanes n (coord v) H x ->
       counts_to (fun rs => match mode with DualDecomposition => in_polar n (coord v) rs x | _ => in_cone n (coord v) rs x end)
         (map (fun d => (b_coef d, s_rays (b_cone d))) new) coef (in_cone n (coord v) rays x)) /\
      Forall (fun d => n_vectors n (s_rays (b_cone d)) /\ lin_indep n (s_rays (b_cone d)) /\ s_det (b_cone d) = det n (vat (s_rays (b_cone d))) /\ Z.abs (b_coef d) = Z.abs coef /\
        (max_det = 0 \/ Z.abs (s_det (b_cone d)) <= max_det \/ sv = SubspaceAvoidingLLL /\ Z.abs (s_det (b_cone d)) <= 200000)) new /\
      stopped cons (delivered st) new r /\
      total_uni st' = total_uni st + Z.of_nat (length new) /\ cur_depth st' = cur_depth st /\ (r <> -1 -> cur_total st' = cur_total st)
  | Err e => e = Thrown /\ mode <> DualDecomposition \/ e = Exited /\ sv = SubspaceAvoidingLLL \/ e = AssertFail /\ sv = LatteLLL /\ ~ decreasing n omega
  end.
Proof.
  intros mode sv omega ker max_det n v cons coef rays c st fuel Hn NV LI E OC KC (P & k & DP & R) Dv Hmax HF. pose proof (indep_det n rays LI) as D0. destruct (det_and_facets_full n rays NV D0) as (c' & E' & FC & ER). rewrite E in E'. injection E' as <-. subst rays.
  pose proof FC as [OK _]. pose proof OK as (_ & ED & _).
  pose proof (dfs_ok mode sv omega ker max_det n v cons Hn KC OC (reachable_scales P k v n DP R Dv) Hmax fuel (mkB coef c) st FC ltac:(cbn [b_cone]; rewrite ED; exact HF)) as G.
  destruct (dfs fuel mode sv omega ker max_det n v cons (mkB coef c) st) as [[r st']|e]; [|exact G].
  destruct (value_counts _ _ _ _ _ _ _ _ _ (mkB coef c) _ _ _ G (fun x => eq_refl) OK) as (new & W & A1 & A2 & A3 & A4 & A5 & A6 & A7 & A8 & A9). exists new, W. repeat (split; [assumption|]). intros NR. rewrite (A9 NR). lia.
Qed.
Print Assumptions signed_decomposition.

(** C30 for barvinok_Single, the entry point: B is a matrix of independent rays, of any
    length, not necessarily primitive.  The vertex passed on (v') is that of the cones. *)
Theorem single_cone_decomposition : forall depth mode sv omega ker max_det n v cons B st,
  (0 < n)%nat -> n_vectors n B -> lin_indep n B -> omega_contract omega -> relation_contract ker ->
  (exists P k, (P = nonzero \/ P = positive) /\ reachable P k v) -> dim v = n -> 0 <= max_det ->
  exists F, forall fuel, (F <= fuel)%nat ->
  match single fuel depth mode sv omega ker max_det n v cons B st with
  | Ok (v', (r, st')) => exists new,
      delivered st' = delivered st ++ new /\
      (r <> -1 ->
       let l := map (fun d => (b_coef d, s_rays (b_cone d))) new in
       match mode with
       | DualDecomposition => v' = v /\ exists H, proper_normals n H /\ forall x, off_hyperplanes n (coord v) H x -> counts_to (fun rs => in_polar n (coord v) rs x) l 1 (in_cone n (coord v) B x)
       | IrrationalPrimalDecomposition => forall x, counts_to (fun rs => in_cone n (coord v') rs (zpoint x)) l 1 (in_polar n (coord v) B (zpoint x))
       | IrrationalAllPrimalDecomposition => v' = v /\ forall x, counts_to (fun rs => in_cone n (coord v) rs (zpoint x)) l 1 (in_cone n (coord v) B (zpoint x))
       end) /\
      Forall (fun d => n_vectors n (s_rays (b_cone d)) /\ lin_indep n (s_rays (b_cone d)) /\ s_det (b_cone d) = det n (vat (s_rays (b_cone d))) /\ Z.abs (b_coef d) = 1 /\
        (max_det = 0 \/ Z.abs (s_det (b_cone d)) <= max_det \/ sv = SubspaceAvoidingLLL /\ Z.abs (s_det (b_cone d)) <= 200000)) new /\
      stopped cons (delivered st) new r
  | Err e => e = Thrown /\ mode <> DualDecomposition \/ e = Exited /\ sv = SubspaceAvoidingLLL \/ e = AssertFail /\ sv = LatteLLL /\ ~ decreasing n omega
  end.
Proof.
  intros depth mode sv omega ker max_det n v cons B st Hn NV LI OC KC RV Dv Hmax. pose proof (indep_det n B LI) as DB. destruct (matrix_gcd_ok n B NV LI Hn) as (NV' & EN & GP & PR & D0). destruct (det_and_facets_full n (matrix_gcd B) NV' D0) as (c & E & FC & ER).
  assert (PRc : rays_primitive n (s_rays c)) by now rewrite ER. pose proof (swap_full n c FC PRc) as FS.
  exists (S (Z.to_nat (Z.abs (s_det c) + Z.abs (s_dual_det c)))). intros fuel HF. unfold single. destruct NV as [LB FB]. rewrite LB, Nat.eqb_refl. rewrite (proj2 (forallb_forall (fun r => (length r =? n)%nat) B)) by (intros r Hr; rewrite Forall_forall in FB; apply Nat.eqb_eq; auto). cbn [negb andb]. rewrite (proj2 (Z.eqb_neq _ _) DB), E. cbn [bind].
  assert (CB : forall w x, in_cone n w B x <-> in_cone n w (s_rays c) x) by (intros w x; rewrite ER; apply (scaled_in_cone n w B (matrix_gcd B) (fun i => row_gcd (nth i B []))); auto).
  assert (PB : forall w x, in_polar n w B x <-> in_polar n w (s_rays c) x) by (intros w x; rewrite ER; apply (scaled_in_polar n w B (matrix_gcd B) (fun i => row_gcd (nth i B []))); auto).
  pose proof RV as (P & k & DP & R). pose proof (reachable_scales P k v n DP R Dv) as SV. pose proof FC as [OK _]. pose proof FS as [OKs _].
  assert (EQC : forall ins l (X Y : Prop) z, (X <-> Y) -> counts_to ins l z Y -> counts_to ins l z X) by (intros ins l X Y z XY [A1 A2]; split; intros H; [apply A1; tauto|apply A2; tauto]).
  destruct mode.
  - pose proof (dfs_ok DualDecomposition sv omega ker max_det n v cons Hn KC OC SV Hmax fuel (mkB 1 c) st FC ltac:(cbn [b_cone]; lia)) as G. destruct (dfs fuel DualDecomposition sv omega ker max_det n v cons (mkB 1 c) st) as [[r st']|e]; cbn [bind]; [|exact G].
    destruct (value_counts _ _ _ _ _ _ _ _ _ (mkB 1 c) _ _ _ G (fun x => eq_refl) OK) as (new & W & A1 & A2 & A3 & A4 & A5 & A6 & _). exists new. split; auto. split; [|split; [exact A5|exact A6]]. intros NR. split; auto. exists W. split; auto. intros x OFF. apply (EQC _ _ _ _ _ (CB (coord v) x)). exact (A4 NR x OFF).
  - destruct (irrationalize_main depth n (swap_cone c) v Hn OKs RV Dv) as (nv & EI & Dnv & (k2 & R2) & PTS & _). rewrite EI. cbn [bind]. pose proof (reachable_scales nonzero k2 nv n (or_introl eq_refl) R2 Dnv) as SV2.
    pose proof (dfs_ok IrrationalPrimalDecomposition sv omega ker max_det n nv cons Hn KC OC SV2 Hmax fuel (mkB 1 (swap_cone c)) st FS ltac:(cbn [b_cone swap_cone s_det]; lia)) as G. destruct (dfs fuel IrrationalPrimalDecomposition sv omega ker max_det n nv cons (mkB 1 (swap_cone c)) st) as [[r st']|e]; cbn [bind]; [|exact G].
    destruct (value_counts _ _ _ _ _ _ _ _ _ (mkB 1 (swap_cone c)) _ _ _ G (fun x => eq_refl) OKs) as (new & W & A1 & A2 & A3 & A4 & A5 & A6 & _). exists new. split; auto. split; [|split; [exact A5|exact A6]]. intros NR. cbv zeta iota. intros x. refine (EQC _ _ _ _ _ _ (A4 NR (zpoint x) (A3 ltac:(discriminate) x))).
    rewrite PB. cbn [b_cone]. rewrite <- PTS. change (s_rays c) with (s_facets (swap_cone c)). rewrite (polar_iff n v (swap_cone c)). now rewrite (in_cone_iff n _ OKs).
  - pose proof (dfs_ok IrrationalAllPrimalDecomposition sv omega ker max_det n v cons Hn KC OC SV Hmax fuel (mkB 1 c) st FC ltac:(cbn [b_cone]; lia)) as G. destruct (dfs fuel IrrationalAllPrimalDecomposition sv omega ker max_det n v cons (mkB 1 c) st) as [[r st']|e]; cbn [bind]; [|exact G].
    destruct (value_counts _ _ _ _ _ _ _ _ _ (mkB 1 c) _ _ _ G (fun x => eq_refl) OK) as (new & W & A1 & A2 & A3 & A4 & A5 & A6 & _). exists new. split; auto. split; [|split; [exact A5|exact A6]]. intros NR. split; auto. intros x. apply (EQC _ _ _ _ _ (CB (coord v) (zpoint x))). exact (A4 NR (zpoint x) (A3 ltac:(discriminate) x)).
Qed.
Print Assumptions single_cone_decomposition.
(** A singular matrix, or rays of the wrong number or length: exit. *)
Theorem single_cone_rejects : forall fuel depth mode sv omega ker max_det n v cons B st,
  (length B <> n \/ (exists r, In r B /\ length r <> n) \/ det n (vat B) = 0) -> single fuel depth mode sv omega ker max_det n v cons B st = Err Exited.
Proof.
  intros fuel depth mode sv omega ker max_det n v cons B st H. unfold single. destruct (negb _) eqn:E; auto. apply negb_false_iff, andb_true_iff in E as [E1 E2]. apply Nat.eqb_eq in E1. rewrite forallb_forall in E2. destruct H as [H|[(r & Hr & H)|H]]; [contradiction|exfalso; apply H, Nat.eqb_eq, E2, Hr|]. change (det n (ent B) = 0) in H. now rewrite H.
Qed.
Print Assumptions single_cone_rejects.

(** The contracts can be met: Cramer's rule gives a relation, and a coordinate vector reduced
    modulo the rays is non-zero and lowers every determinant. *)
Theorem barvinok_contracts_can_be_met : exists omega ker, omega_contract omega /\ (forall n, decreasing n omega) /\ relation_contract ker.
Proof. exists short_omega, cramer_ker. split; [exact short_omega_ok|]. split; [exact short_omega_decreasing|exact cramer_ker_ok]. Qed.
Print Assumptions barvinok_contracts_can_be_met.
(** The cone of (1,0), (3,7): index 7.  Dual decomposition to index 1; stopping the caller at
    its second cone; primal decomposition at an irrational apex to index 2. *)
Definition sample_v : rvec := mkRV [0;0] [1;1] false [] 0.
Definition sample_st : bstate := mkSt [] 0 0 0 0 0.
Example barvinok_sample :
  match single 20 1 DualDecomposition LatteLLL short_omega cramer_ker 1 2 sample_v (fun _ _ => 1) [[2;0];[3;7]] sample_st with
  | Ok (_, (r, st)) => r = 1 /\ map (fun d => (b_coef d, s_rays (b_cone d))) (delivered st) = [(1, [[-1; 1]; [0; -1]]); (1, [[-7; 3]; [2; -1]]); (1, [[-2; 1]; [1; -1]])]
  | Err _ => False
  end /\
  match single 20 1 DualDecomposition LatteLLL short_omega cramer_ker 1 2 sample_v (fun seen _ => if (length seen =? 1)%nat then -1 else 1) [[2;0];[3;7]] sample_st with
  | Ok (_, (r, st)) => r = -1 /\ length (delivered st) = 2%nat
  | Err _ => False
  end /\
  match single 20 1 IrrationalPrimalDecomposition LatteLLL short_omega cramer_ker 2 2 sample_v (fun _ _ => 1) [[2;0];[3;7]] sample_st with
  | Ok (_, (r, st)) => r = 1 /\ map (fun d => (b_coef d, s_rays (b_cone d))) (delivered st) = [(1, [[-7; 3]; [-5; 2]]); (1, [[-5; 2]; [-6; 2]]); (1, [[-4; 1]; [-5; 1]]); (1, [[-6; 2]; [-4; 1]]); (1, [[-2; 0]; [0; -1]]); (1, [[-5; 1]; [-2; 0]])]
  | Err _ => False
  end.
Proof. vm_compute. repeat split; reflexivity. Qed.
(** The hypotheses hold in these cases. *)
Example barvinok_hypotheses : n_vectors 2 [[2;0];[3;7]] /\ lin_indep 2 [[2;0];[3;7]] /\ (exists k, reachable positive k sample_v) /\ dim sample_v = 2%nat.
Proof.
  split; [split; [reflexivity|repeat constructor]|]. split; [apply det_indep; vm_compute; discriminate|]. split; [|reflexivity].
  exists (CPair [0;0] [1;1]). split; [cbn; split; [reflexivity|]; repeat constructor|]. exists sample_v, []. split; [reflexivity|]. split; [constructor|reflexivity].
Qed.
