(** Approximation: the whole run. *)
From Coq Require Import QArith Qfield Lqa.
From Verif Require Import Common SmithSpec ZMat Hermite HermiteProofs Det DetProofs RatVec RatVecSpec RatVecProofs Piped PipedSpec PipedProofs PipedProofs3 PipedProofs4 ConeSpec ConeProofs Irrational IrrationalProofs3 IntegMath Series DecompProofs Exponential ExpSpec ExpProofs ExpProofs2 ExpProofs3 ExpProofs4 CountSpec Barvinok BarvinokSpec BarvinokProofs BarvinokProofs2 BarvinokProofs3 BarvinokProofs4 P_Barvinok BrionLinear BrionProofs BrionProofs2 BrionProofs3 EulerProofs BrionProofs4 BrionProofs5 Count CountProofs CountProofs2 CountProofs3 CountProofs4 CountProofs5 Approx ApproxProofs ApproxProofs2 ApproxProofs3.
Open Scope Z_scope.

(** More room and more fuel give the same result. *)
Lemma evaluate_more P P' n size size' g v d st r : q_fuel2 P' = q_fuel2 P -> q_xg P' = q_xg P -> q_max_det P' = q_max_det P -> size <= size' -> evaluate P n size g v d st = Ok r -> evaluate P' n size' g v d st = Ok r.
Proof.
  intros E1 E2 E3 L. unfold evaluate. rewrite E1, E2, E3. destruct (_ <=? _); [tauto|]. destruct (cone_bounds n g v d) as [b|e]; cbn [bind]; [|discriminate]. destruct (Z.ltb_spec (Z.of_nat (length (a_heap st))) size); [|discriminate]. now rewrite (proj2 (Z.ltb_lt _ size')) by lia.
Qed.
Lemma fold_more {A B} (f f' : A -> B -> outcome B) l : (forall x st r, In x l -> f x st = Ok r -> f' x st = Ok r) -> forall st r, fold_out f l st = Ok r -> fold_out f' l st = Ok r.
Proof.
  induction l as [|x l IH]; intros H st r E; [exact E|]. cbn [fold_out] in *. destruct (f x st) as [st1|e] eqn:E1; cbn [bind] in E; [|discriminate]. rewrite (H x st st1 (or_introl eq_refl) E1). cbn [bind]. apply IH; [intros y st' r' Hy; apply H; now right|exact E].
Qed.
Section More.
Context (P : params) (f1 f1' f2 n : nat) (size size' : Z) (g : list Z) (pick : astate -> nat) (Lf : (f1 <= f1')%nat) (Ls : size <= size').
Let Q1 := fueled P f1 f2. Let Q2 := fueled P f1' f2.
Lemma ev_more v d st r : evaluate Q1 n size g v d st = Ok r -> evaluate Q2 n size' g v d st = Ok r.
Proof. apply evaluate_more; auto. Qed.
Lemma consume_more v t st r : consume Q1 n size g v t st = Ok r -> consume Q2 n size' g v t st = Ok r.
Proof.
  unfold consume. destruct (negb _); [discriminate|]. destruct (det_and_facets n t) as [c|e]; cbn [bind]; [|discriminate]. cbn [Q1 Q2 fueled q_mode q_depth]. destruct (q_mode P); [apply ev_more| |apply ev_more]. destruct (irrationalize _ _ _ _) as [nv|e]; cbn [bind]; [apply ev_more|discriminate].
Qed.
Lemma refine_more f : forall f' st r, (f <= f')%nat -> refine f Q1 n size g pick st = Ok r -> refine f' Q2 n size' g pick st = Ok r.
Proof.
  induction f as [|f IH]; intros f' st r L E; [discriminate|]. destruct f' as [|f']; [lia|]. cbn [refine] in *. destruct (a_heap st) as [|h hs]; [exact E|]. destruct (nth_error (h :: hs) (pick st)) as [[[v d] b]|]; [|discriminate]. cbn [Q1 Q2 fueled q_sv q_omega q_ker] in *.
  destruct (step _ _ _ n d) as [[[ch dets]|]|e]; cbn [bind] in *; [| |discriminate].
  - match type of E with bind ?X _ = _ => destruct X as [st2|e] eqn:EC end; cbn [bind] in E; [|discriminate]. unfold evaluate_children in EC |- *. erewrite fold_more; [|clear EC|exact EC]; [cbn [bind]; apply IH; [lia|exact E]|]. intros [d'|] st' r' _; [apply ev_more|tauto].
  - apply IH; [lia|exact E].
Qed.
Lemma cones_more cones r : approximate_cones Q1 n size g pick cones = Ok r -> approximate_cones Q2 n size' g pick cones = Ok r.
Proof.
  unfold approximate_cones. intros E. destruct (consume_cones Q1 n size g cones initial) as [st0|e] eqn:E0; cbn [bind] in E; [|discriminate].
  assert (E0' : consume_cones Q2 n size' g cones initial = Ok st0). { unfold consume_cones in *. revert E0. apply fold_more. intros c st r' _. cbn [Q1 Q2 fueled q_tri]. apply fold_more. intros t st' r2 _. apply consume_more. }
  rewrite E0'. cbn [bind]. destruct (refine (q_fuel Q1) Q1 n size g pick st0) as [st1|e] eqn:E1; cbn [bind] in E; [|discriminate]. rewrite (refine_more (q_fuel Q1) (q_fuel Q2) st0 st1 Lf E1). exact E.
Qed.
End More.

Lemma ray_nonzero n d r : cone_ok n (b_cone d) -> In r (s_rays (b_cone d)) -> exists k, (k < n)%nat /\ nth k r 0 <> 0.
Proof.
  intros OK Hr. destruct OK as ((LR & FR) & ED & D0 & _). destruct (existsb (fun k => negb (nth k r 0 =? 0)) (seq 0 n)) eqn:EX.
  - apply existsb_exists in EX as (k & Hk & Ek). apply in_seq in Hk. exists k. split; [lia|]. now apply negb_true_iff, Z.eqb_neq in Ek.
  - exfalso. apply (In_nth _ _ []) in Hr as (i & Hi' & Ei). rewrite LR in Hi'. assert (LI : lin_indep n (s_rays (b_cone d))) by (apply det_indep; now rewrite <- ED).
    pose proof (LI (fun k => if Nat.eqb k i then 1 else 0)) as L0. assert (L1 : (if Nat.eqb i i then 1 else 0) = 0); [|rewrite Nat.eqb_refl in L1; discriminate]. apply L0; [|exact Hi']. intros j Hj. rewrite sumz_zsum, (zsum_single n _ i Hi') by (intros k Hk NE; rewrite (proj2 (Nat.eqb_neq k i) NE); ring). rewrite Nat.eqb_refl, Z.mul_1_l. unfold vat. rewrite Ei.
    destruct (Z.eq_dec (nth j r 0) 0) as [E0|N0]; [exact E0|]. assert (X : existsb (fun k => negb (nth k r 0 =? 0)) (seq 0 n) = true); [|congruence]. apply existsb_exists. exists j. split; [apply in_seq; lia|]. now apply negb_true_iff, Z.eqb_neq.
Qed.

Section Final.
Context (P : params) (n : nat) (rows : list (list Z)) (points : list (list Z)) (vs : list (nat -> Q)) (cones : list vcone).
Context (Hn : (0 < n)%nat) (KC : relation_contract (q_ker P)) (OC : omega_contract (q_omega P)) (XG : xgcd_contract (q_xg P)) (LLL : q_sv P = LatteLLL) (MD : q_mode P <> DualDecomposition).
Context (HC : forall c, In c cones -> usable n (fst (fst c)) /\ triangulates n (snd (fst c)) (q_tri P (snd (fst c))) /\ (q_mode P = IrrationalPrimalDecomposition -> forall t, In t (q_tri P (snd (fst c))) -> rays_primitive n t)).
Context (AV : all_vertices n rows vs) (IP : integer_points n rows points).
Context (HT : forall x, length x = n -> lsum (map (fun c : vcone => hfun n (q_mode P) (fst (fst c)) (snd (fst c)) x) cones) = lsum (map (fun v => Tind n rows v x) vs)).
Definition NP : Q := qnat (length points).
Definition right_answer (r : list (Q * Q) * list (rvec * bcone)) : Prop := off_walls n (snd r) -> Forall (encl NP) (fst r) /\ exists pre l u, fst r = pre ++ [(l, u)] /\ (l == NP)%Q /\ (u == NP)%Q.
Lemma values_count D H pss g : Forall2 (cone_pieces n P) cones pss -> (forall i, In i (flat_map (fun cp => flat_map (items_of (snd (fst cp))) (snd cp)) (List.combine cones pss)) -> cone_ok n (b_cone (snd i))) ->
  (forall x, In x (D ++ H) -> exact_points n x /\ generic_for g (snd (fst x))) -> (forall y, length y = n -> T n D H y = itot n (sh0 n) (flat_map (fun cp => flat_map (items_of (snd (fst cp))) (snd cp)) (List.combine cones pss)) y) ->
  (qsum (val g) D + qsum (val g) H == NP)%Q.
Proof.
  intros CP OKI EX ET. set (sh := sh0 n). assert (LS : forall w, length (sh w) = n) by (intros w; apply repeat_length).
  assert (BR : negl n (fun x => gcoeff (gpoints points) x - lsum (map (fun c : vcone => hfun n (q_mode P) (fst (fst c)) (snd (fst c)) (vsub x (sh (snd c)))) cones))).
  { refine (negl_ext n _ _ _ (brion_points n rows vs points AV IP)). intros x Hx. cbv beta. unfold sh, sh0. rewrite (vsub_zero n x Hx), (HT x Hx). lia. }
  pose proof (cones_sum n sh P cones pss (fun c Hc => conj (proj1 (proj2 (HC c Hc))) (LS _)) CP OKI) as CS. set (xs := D ++ H).
  assert (FX : Forall (exact_points n) xs) by (apply Forall_forall; intros x Hx; apply EX, Hx).
  assert (GEN : generates n (map (gcone_of sh) xs) points).
  { apply (items_generate n sh xs points FX (fun x _ => LS _) (points_len n rows points IP)). refine (negl_ext n _ _ _ (negl_add n _ _ BR (negl_scale n (-1) _ CS))). intros x Hx. cbv beta. unfold xs. rewrite map_app, itot_app. pose proof (ET x Hx) as E. unfold T in E. fold sh in E. lia. }
  assert (FG : Forall (gc_ok n) (map (gcone_of sh) xs)).
  { apply Forall_map, Forall_forall. intros [[[w v] d] pts] Hx. rewrite Forall_forall in FX. exact (proj1 (item_matches n sh w v d pts (FX _ Hx) (LS _))). }
  assert (NZ : zprodl (map (zdot g) (all_rays (map (gcone_of sh) xs))) <> 0).
  { assert (GS : forall x, In x xs -> generic_for g (snd (fst x))) by (intros x Hx; apply EX, Hx). clear -GS. induction xs as [|[[[w v] d] pts] xs IH]; [cbn; lia|]. cbn [map]. rewrite all_rays_cons, map_app, zprodl_app. cbn [gcone_of fst snd] in *. pose proof (GS _ (or_introl eq_refl)) as G0. cbn [fst snd] in G0. specialize (IH (fun x Hx => GS x (or_intror Hx))). intros E. apply Z.mul_eq_0 in E as [E|E]; [exact (G0 E)|exact (IH E)]. }
  unfold NP. rewrite <- (gtotal_count n g (map (gcone_of sh) xs) points FG NZ (points_len n rows points IP) GEN), qsum_map. rewrite <- qsum_app_. apply qsum_ext. intros [[[w v] d] pts] Hx. unfold val, ExpProofs4.value, cone_of_item, gcone_of. cbn [fst snd e_coef e_rays e_sps]. rewrite Forall_forall in FX. destruct (FX _ Hx) as (_ & _ & _ & HP).
  assert (EM : map (zdot g) pts = map (zdot g) (map (fun p => vadd p (sh w)) pts)). { rewrite map_map. apply map_ext_in. intros p Hp. apply HP in Hp as [Lp _]. unfold sh, sh0. now rewrite (vadd_zero n p Lp). } now rewrite <- EM.
Qed.
Theorem approx_main : exists N H0 F1, (forall r, In r N -> length r = n /\ exists k, (k < n)%nat /\ nth k r 0 <> 0) /\
  forall g, length g = n -> exists F2, forall f1 f2 size pick, (F1 <= f1)%nat -> (F2 <= f2)%nat -> H0 <= size ->
  match approximate_cones (fueled P f1 f2) n size g pick cones with
  | Ok r => right_answer r
  | Err e => e = Thrown /\ (exists r, In r N /\ zdot g r = 0) \/ e = Exited /\ int_max < q_max_det P \/ e = AssertFail /\ (q_max_det P < 1 \/ ~ decreasing n (q_omega P)) \/
             e = OutOfBounds /\ exists st, a_heap st <> [] /\ (length (a_heap st) <= pick st)%nat
  end.
Proof.
  set (L := flat_map (fun c : vcone => map (pair (fst (fst c))) (q_tri P (snd (fst c)))) cones).
  destruct (nodes_exist P n L Hn KC OC) as (NODES & NG & NC & RT).
  { intros v t Hvt. apply in_flat_map in Hvt as (c & Hc & Ht). apply in_map_iff in Ht as (t' & E & Ht). injection E as <- <-. destruct (HC c Hc) as (UV & TR & PR). destruct (proj1 TR t' Ht) as [NV LI]. apply root_exists; auto. }
  assert (HK : exists K, forall v d, In (v, d) NODES -> Z.abs (s_det (b_cone d)) <= K).
  { clear. induction NODES as [|[v d] l (K & HK)]; [exists 0; intros v d []|]. exists (Z.max K (Z.abs (s_det (b_cone d)))). intros v' d' [E|H]; [injection E as _ <-; lia|specialize (HK v' d' H); lia]. }
  destruct HK as (K & HK).
  set (B := Z.of_nat (length (flat_map (fun c : vcone => q_tri P (snd (fst c))) cones)) * (Z.of_nat n + 1) ^ K).
  exists (flat_map (fun vd : rvec * bcone => s_rays (b_cone (snd vd))) NODES), (B + 1), (Z.to_nat (B + 1)). split.
  { intros r Hr. apply in_flat_map in Hr as ([v d] & Hd & Hr). cbn [snd] in Hr. destruct (NG v d Hd) as [_ [(NV & ED & D0 & _) _]]. pose proof NV as [LR FR]. rewrite Forall_forall in FR. split; [exact (FR r Hr)|].
    exact (ray_nonzero n d r (proj1 (proj2 (NG v d Hd))) Hr). }
  intros g Lg.
  destruct (all_fuel (fun (vd : rvec * bcone) f => Z.abs (s_det (b_cone (snd vd))) <= int_max -> exists pts, exact_points n ([], fst vd, snd vd, pts) /\ scalar_products f (q_xg P) n (b_cone (snd vd)) (fst vd) g = Ok (map (zdot g) pts)) NODES) as (F2 & HF2).
  { intros [v d] Hd. cbn [fst snd]. destruct (NG v d Hd) as [[RV Dv] [OK _]]. destruct (Z.le_gt_cases (Z.abs (s_det (b_cone d))) int_max) as [BD|BD]; [|exists 0%nat; intros; lia]. destruct (scalar_products_exact (q_xg P) n (b_cone d) v g XG Hn OK RV Dv Lg BD) as (F & ps & ND & IN & E). exists F. intros f Hf _. exists ps. split; [exact (conj (conj RV Dv) (conj OK (conj ND IN)))|]. now rewrite (E f Hf), (sps_zdot n g ps Lg). }
  exists F2. intros f1 f2 size pick Hf1 Hf2 Hs. set (P' := fueled P f1 f2).
  assert (NF : forall v d, In (v, d) NODES -> Z.abs (s_det (b_cone d)) <= int_max -> exists pts, exact_points n ([], v, d, pts) /\ scalar_products (q_fuel2 P') (q_xg P') n (b_cone d) v g = Ok (map (zdot g) pts)) by (intros v d Hd BD; exact (HF2 f2 Hf2 (v, d) Hd BD)).
  assert (BADOK : forall e, bad P f1 f2 n g NODES pick e -> e = Thrown /\ (exists r, In r (flat_map (fun vd : rvec * bcone => s_rays (b_cone (snd vd))) NODES) /\ zdot g r = 0) \/ e = Exited /\ int_max < q_max_det P \/ e = AssertFail /\ (q_max_det P < 1 \/ ~ decreasing n (q_omega P)) \/ e = OutOfBounds /\ exists st, a_heap st <> [] /\ (length (a_heap st) <= pick st)%nat).
  { intros e [[-> (v & d & Hd & G)]|[X|[X|X]]]; [left; split; [reflexivity|]|right; left; exact X|right; right; left; exact X|right; right; right; exact X].
    assert (Z0 : zprodl (map (zdot g) (s_rays (b_cone d))) = 0) by (destruct (Z.eq_dec (zprodl (map (zdot g) (s_rays (b_cone d)))) 0); [assumption|contradiction]).
    assert (EX : exists r, In r (s_rays (b_cone d)) /\ zdot g r = 0). { clear -Z0. induction (s_rays (b_cone d)) as [|r l IH]; [cbn in Z0; lia|]. cbn [map zprodl fold_right] in Z0. apply Z.mul_eq_0 in Z0 as [Z0|Z0]; [exists r; split; [now left|exact Z0]|]. destruct (IH Z0) as (r' & H1 & H2). exists r'. split; [now right|exact H2]. }
    destruct EX as (r & Hr & E). exists r. split; [|exact E]. apply in_flat_map. exists (v, d). auto. }
  assert (HR : forall c t, In c cones -> In t (q_tri P' (snd (fst c))) -> root_in P n NODES (fst (fst c)) t).
  { intros c t Hc Ht. apply RT. apply in_flat_map. exists c. split; [exact Hc|]. now apply in_map. }
  pose proof (cones_first P f1 f2 n size g NODES pick Hn XG Lg NG NF K HK cones HR initial [] [] (initial_ok n g NODES)) as CF. fold P' in CF. unfold approximate_cones.
  assert (KP := Z.pow_nonneg (Z.of_nat n + 1) K ltac:(lia)).
  specialize (CF ltac:(unfold big; constructor)). cbn [initial a_heap] in CF. change (W n []) with 0 in CF. change (q_tri P') with (q_tri P) in CF. fold B in CF. specialize (CF ltac:(lia)).
  destruct (consume_cones P' n size g cones initial) as [st0|e]; cbn [bind]; [|exact (BADOK e CF)]. destruct CF as (W0 & B0 & D0 & H0 & pss & SO & T0 & I0 & S0 & CP & OKI).
  pose proof (refine_total P f1 f2 n size g NODES pick Hn KC OC XG Lg LLL NG NC NF (q_fuel P') st0 D0 H0 SO B0 ltac:(cbn [P' fueled q_fuel]; lia) ltac:(lia)) as RTOT. fold P' in RTOT.
  destruct (refine (q_fuel P') P' n size g pick st0) as [st|e] eqn:ER; cbn [bind]; [|exact (BADOK e RTOT)].
  unfold right_answer. cbn [fst snd]. intros OW.
  pose proof (refine_met P' n size g NODES Hn XG Lg NG NC NF pick (q_fuel P') st0 D0 H0 st SO ER) as IM.
  assert (OW0 : off_walls n (a_met st0)) by (intros v d x Hd; exact (OW v d x (IM _ Hd))).
  destruct (refine_ok P' n size g NODES Hn KC OC XG Lg NG NC NF _ NP LLL (fun D H EX ET => values_count D H pss g (CP OW0) OKI EX ET) pick (q_fuel P') st0 D0 H0 st SO) as (FS & EL & EU); [|rewrite S0; constructor|exact ER|exact OW|].
  { intros y Ly. exact (T0 y). }
  split.
  - apply Forall_app. split; [exact FS|]. apply Forall_cons; [|constructor]. unfold encl. cbn [fst snd]. rewrite EL, EU. split; lra.
  - exists (a_shown st), (a_lower st), (a_upper st). auto.
Qed.
Corollary approx_sound : forall g, length g = n -> exists F2, forall f1 f2 size pick r, (F2 <= f2)%nat -> approximate_cones (fueled P f1 f2) n size g pick cones = Ok r -> right_answer r.
Proof.
  intros g Lg. destruct approx_main as (N & H0 & F1 & _ & H). destruct (H g Lg) as (F2 & HF). exists F2. intros f1 f2 size pick r Hf2 E.
  pose proof (HF (Nat.max f1 F1) f2 (Z.max size H0) pick ltac:(lia) Hf2 ltac:(lia)) as X. rewrite (cones_more P f1 (Nat.max f1 F1) f2 n size (Z.max size H0) g pick ltac:(lia) ltac:(lia) cones r E) in X. exact X.
Qed.
End Final.
