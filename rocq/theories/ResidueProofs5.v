(** Counting with the polynomial substitution. *)
From Coq Require Import QArith Qfield Qround Lqa.
From Verif Require Import Common SmithSpec ZMat Hermite HermiteProofs Det DetProofs RatVec RatVecSpec RatVecProofs Piped PipedSpec PipedProofs PipedProofs3 PipedProofs4 ConeSpec ConeProofs Irrational IrrationalProofs IrrationalProofs2 IrrationalProofs3 IntegMath DecompProofs Series Exponential ExpSpec ExpProofs ExpProofs2 ExpProofs3 ExpProofs4 P_Exponential CountSpec Barvinok BarvinokSpec BarvinokProofs BarvinokProofs2 BarvinokProofs3 BarvinokProofs4 P_Barvinok BrionLinear BrionProofs BrionProofs2 BrionProofs3 EulerProofs BrionProofs4 BrionProofs5 Count CountProofs CountProofs2 CountProofs3 CountProofs4 CountProofs5 CountProofs6 Residue ResidueSpec ResidueProofs ResidueProofs2 ResidueProofs3 ResidueProofs4.
Open Scope Z_scope.

(** What one point adds, before and after rounding. *)
Definition term (g : list Z) (coef : Z) (rays : list (list Z)) (p : list Z) : Q := (inject_Z coef * qF (map (zdot g) rays) (zdot g p) (length rays))%Q.
Definition fterm (ten : Z) (q : Q) : Z := Qfloor (inject_Z ten * q).
Definition zsuml (l : list Z) : Z := fold_right Z.add 0 l.
Lemma sumM_ok f h l : (forall p, In p l -> f p = Ok (h p)) -> forall acc, sumM f l acc = Ok (acc + zsuml (map h l)).
Proof.
  unfold sumM. induction l as [|p l IH]; intros H acc; cbn [fold_left map zsuml fold_right]; [f_equal; lia|]. cbn [bind]. rewrite (H p (or_introl eq_refl)). cbn [bind]. rewrite IH by (intros q Hq; apply H; now right). fold (zsuml (map h l)). f_equal. lia.
Qed.
Lemma exists_zero l : existsb (fun r => r =? 0) l = true <-> zprodl l = 0.
Proof. destruct (existsb (fun r => r =? 0) l) eqn:E; split; intros H; try reflexivity; try discriminate; [|now apply zprodl_nz in E]. destruct (Z.eq_dec (zprodl l) 0) as [X|X]; [exact X|]. apply zprodl_nz in X. congruence. Qed.
Lemma zprodl_all l : zprodl l <> 0 -> Forall (fun r => r <> 0) l.
Proof. induction l as [|r l IH]; cbn [zprodl]; intros H; constructor; [|apply IH]; intros E; apply H; rewrite E; lia. Qed.
Lemma residue_single_ok ten g coef rays pts total : rays <> [] -> pts <> [] ->
  residue_single_cone ten g coef rays pts total = if Z.eq_dec (zprodl (map (zdot g) rays)) 0 then Ok None else Ok (Some (total + zsuml (map (fun p => fterm ten (term g coef rays p)) pts))).
Proof.
  intros NR NP. unfold residue_single_cone. destruct pts as [|p0 pts0]; [contradiction|]. set (pts := p0 :: pts0) in *. destruct (Z.eq_dec (zprodl (map (zdot g) rays)) 0) as [E|E].
  - rewrite (proj2 (exists_zero _) E). reflexivity.
  - rewrite (proj2 (zprodl_nz _) E). rewrite (sumM_ok _ (fun p => fterm ten (term g coef rays p))); [reflexivity|]. intros p _. rewrite contribution_ok; [|destruct rays; [contradiction|discriminate]|now apply zprodl_all]. unfold fterm, term. f_equal. apply Qfloor_comp. ring.
Qed.
(** The effect of a cone. *)
Definition residue_upd (P : params) (g : list Z) (x : xitem) (a b : Z * Z) : Prop :=
  let '(w, v, d, pts) := x in small P d /\ Z.of_nat (length pts) = Z.abs (s_det (b_cone d)) /\ s_det (b_cone d) <> 0 /\
  b = (fst a + zsuml (map (fun p => fterm ten_power (term g (b_coef d) (s_rays (b_cone d)) p)) pts), snd a + 1).
Lemma residue_consumer P n : (0 < n)%nat -> xgcd_contract (q_xg P) -> consumer_ok P n (fun P' => residue_consume P' n) (fun _ => True) (residue_upd P).
Proof.
  intros Hn XG g w v d Lg UV OK. destruct UV as [RV Dv]. destruct (points_exact (q_xg P) n (b_cone d) v XG Hn OK RV Dv) as (F & [[B E]|(ps & E & ND & IN & LN)]); exists F; intros f1 f2 Hf SM P'.
  - right. left. split; [exact B|]. intros acc. unfold residue_consume. cbn [P' fueled q_fuel2 q_xg]. rewrite (E f2 Hf). reflexivity.
  - pose proof OK as ((LR & _) & _ & D0 & _). assert (NR : s_rays (b_cone d) <> []) by (intros X; rewrite X in LR; cbn in LR; lia). assert (NP : ps <> []) by (intros X; rewrite X in LN; cbn in LN; lia).
    assert (RC : forall acc, residue_consume P' n g w v d acc = if Z.eq_dec (zprodl (map (zdot g) (s_rays (b_cone d)))) 0 then Ok None else Ok (Some (fst acc + zsuml (map (fun p => fterm ten_power (term g (b_coef d) (s_rays (b_cone d)) p)) ps), snd acc + 1))).
    { intros acc. unfold residue_consume. cbn [P' fueled q_fuel2 q_xg]. rewrite (E f2 Hf). cbn [bind]. rewrite (residue_single_ok _ _ _ _ _ _ NR NP). destruct (Z.eq_dec _ 0); reflexivity. }
    destruct (Z.eq_dec (zprodl (map (zdot g) (s_rays (b_cone d)))) 0) as [Z0|NZ].
    + left. split; [now apply status_generic|]. exact RC.
    + right. right. split; [now rewrite status_generic|]. exists ps. split; [exact (conj (conj RV Dv) (conj OK (conj ND IN)))|]. intros acc _. eexists. split; [apply RC|]. split; [exact I|]. cbn [residue_upd]. auto.
Qed.
(** All the terms. *)
Definition terms (g : list Z) (xs : list xitem) : list Q := flat_map (fun x : xitem => let '(w, v, d, pts) := x in map (term g (b_coef d) (s_rays (b_cone d))) pts) xs.
Lemma zsuml_app l r : zsuml (l ++ r) = zsuml l + zsuml r.
Proof. induction l as [|x l IH]; cbn [app zsuml fold_right]; [reflexivity|]. fold (zsuml (l ++ r)) (zsuml l). lia. Qed.
Lemma residue_chain P g xs : forall a b, chain (residue_upd P g) xs a b ->
  fst b = fst a + zsuml (map (fterm ten_power) (terms g xs)) /\ snd b = snd a + Z.of_nat (length xs) /\
  (q_max_det P <> 0 -> q_sv P <> SubspaceAvoidingLLL -> Z.of_nat (length (terms g xs)) <= Z.of_nat (length xs) * q_max_det P).
Proof.
  intros a b H. induction H as [a|[[[w v] d] pts] l a b c U0 H IH]; [unfold terms; cbn [flat_map map zsuml fold_right length]; split; [lia|]; split; lia|].
  destruct U0 as ((_ & SM) & LN & D0 & EB). destruct IH as (I1 & I2 & I3). unfold terms. cbn [flat_map]. fold (terms g l). rewrite map_app, zsuml_app, app_length, !map_map, map_length. rewrite I1, I2, EB. cbn [fst snd length]. split; [lia|]. split; [lia|]. intros M0 NS. specialize (I3 M0 NS). destruct SM as [SM|[SM|SM]]; [contradiction| |contradiction]. lia.
Qed.
(** Rounding. *)
Lemma floors ten l : (0 < ten) -> let s := zsuml (map (fterm ten) l) in (inject_Z s <= inject_Z ten * qsum (fun q => q) l)%Q /\ (inject_Z ten * qsum (fun q => q) l - inject_Z (Z.of_nat (length l)) <= inject_Z s)%Q /\ (l <> [] -> (inject_Z ten * qsum (fun q => q) l - inject_Z (Z.of_nat (length l)) < inject_Z s)%Q).
Proof.
  intros Ht. cbv zeta. induction l as [|q l (I1 & I2 & I3)]; cbn [map zsuml fold_right qsum length].
  - split; [change (inject_Z 0) with 0%Q; lra|]. split; [change (inject_Z (Z.of_nat 0)) with 0%Q; change (inject_Z 0) with 0%Q; lra|contradiction].
  - fold (zsuml (map (fterm ten) l)). pose proof (Qfloor_le (inject_Z ten * q)) as L1. pose proof (Qlt_floor (inject_Z ten * q)) as L2. unfold fterm at 1 3 5. rewrite Nat2Z.inj_succ. unfold Z.succ. rewrite !inject_Z_plus in *. change (inject_Z 1) with 1%Q in *. set (F := inject_Z (Qfloor (inject_Z ten * q))) in *. set (T := (inject_Z ten * q)%Q) in *. set (R := qsum (fun q0 => q0) l) in *.
    setoid_replace (inject_Z ten * (q + R))%Q with (T + inject_Z ten * R)%Q by (unfold T; ring). split; [lra|]. split; [lra|]. intros _. lra.
Qed.
Lemma round_ok ten s c m : 0 < ten -> ten mod 2 = 0 -> 0 <= c -> 2 * m <= ten ->
  (ten * c - m < s <= ten * c \/ ten * (- c) - m < s <= ten * (- c)) -> round_total ten s = c.
Proof.
  intros Ht Te Hc Hm H. unfold round_total. assert (E2 : ten = 2 * (ten / 2)) by (pose proof (Z.div_mod ten 2 ltac:(lia)); lia). symmetry. apply (Z.div_unique _ _ _ (Z.abs s + ten / 2 - ten * c)); [|ring]. left.
  destruct H as [H|H]; [|replace (ten * - c) with (- (ten * c)) in H by ring]; set (X := ten * c) in *; assert (0 <= X) by (unfold X; nia); assert (X = 0 \/ ten <= X) by (unfold X; destruct (Z.eq_dec c 0) as [->|]; [left; ring|right; nia]); lia.
Qed.
Lemma rounding l n c : 0 <= c -> Z.of_nat (length l) <= 5 * 10 ^ 9 -> (qsum (fun q => q) l == inject_Z (sgn n) * inject_Z c)%Q -> round_total ten_power (zsuml (map (fterm ten_power) l)) = c.
Proof.
  intros Hc Hl HS. destruct l as [|q l].
  - cbn [qsum map zsuml fold_right] in *. assert (E : inject_Z 0 == inject_Z (sgn n * c)) by (rewrite inject_Z_mult; exact HS). apply (proj1 (inject_Z_injective 0 (sgn n * c))) in E. assert (c = 0) by (destruct (Z.mul_eq_1 _ _ (sgn_sq n)) as [X|X]; rewrite X in E; lia). subst c. reflexivity.
  - destruct (floors ten_power (q :: l) ltac:(unfold ten_power; lia)) as (A & _ & B). specialize (B ltac:(discriminate)). rewrite HS in A, B.
    apply (round_ok ten_power _ c (Z.of_nat (length (q :: l)))); [unfold ten_power; lia|reflexivity|exact Hc|unfold ten_power; lia|].
    set (s := zsuml (map (fterm ten_power) (q :: l))) in *. set (m := Z.of_nat (length (q :: l))) in *. rewrite <- !inject_Z_mult in *. rewrite <- Zle_Qle in A.
    assert (B' : ten_power * (sgn n * c) - m < s). { unfold Qminus in B. rewrite <- inject_Z_opp, <- inject_Z_plus, <- Zlt_Qlt in B. lia. }
    destruct (Z.mul_eq_1 _ _ (sgn_sq n)) as [E|E]; rewrite E in *; [left|right]; lia.
Qed.

Section Final.
Context (P : params) (n : nat) (rows : list (list Z)) (points : list (list Z)) (vs : list (nat -> Q)) (cones : list vcone).
Context (Hn : (0 < n)%nat) (KC : relation_contract (q_ker P)) (OC : omega_contract (q_omega P)) (PC : q_mode P = DualDecomposition -> primitive_choice (q_omega P)) (Hmax : 0 <= q_max_det P) (XG : xgcd_contract (q_xg P)).
Context (HC : forall c, In c cones -> usable n (fst (fst c)) /\ triangulates n (snd (fst c)) (q_tri P (snd (fst c)))).
Definition residue_good (zu : Z * Z) : Prop := q_max_det P <> 0 -> q_sv P <> SubspaceAvoidingLLL -> snd zu * q_max_det P <= 5 * 10 ^ 9 -> fst zu = Z.of_nat (length points).
Theorem residue_cones_ok : all_vertices n rows vs -> integer_points n rows points ->
  (forall x, length x = n -> lsum (map (fun c : vcone => hfun n (q_mode P) (fst (fst c)) (snd (fst c)) x) cones) = lsum (map (fun v => Tind n rows v x) vs)) ->
  exists N, (forall r, In r N -> length r = n /\ exists k, (k < n)%nat /\ nth k r 0 <> 0) /\
  forall guesses, (forall g, In g guesses -> length g = n) -> exists F1, forall f1, (F1 <= f1)%nat -> exists F2, forall f2, (F2 <= f2)%nat ->
  outcome_ok P n residue_good N guesses (count_residue_cones (fueled P f1 f2) n guesses cones).
Proof.
  intros AV IP HT.
  destruct (list_ok (Z * Z) P n (fun P' => residue_consume P' n) (fun _ => True) (residue_upd P) (0, 0) cones Hn KC OC PC Hmax (residue_consumer P n Hn XG) I (fun c Hc => conj (proj1 (HC c Hc)) (proj1 (proj2 (HC c Hc))))) as (N & NN & LK).
  exists N. split; [exact NN|]. intros guesses LG. destruct (LK guesses LG) as (F1 & LK1). exists F1. intros f1 Hf1. destruct (LK1 f1 Hf1) as (F2 & LK2). exists F2. intros f2 Hf2. specialize (LK2 f2 Hf2). unfold count_residue_cones.
  destruct (decomposition_list (fueled P f1 f2) n (residue_consume (fueled P f1 f2) n) (0, 0) cones guesses) as [q|e]; cbn [bind]; [|exact LK2].
  destruct LK2 as (g & pss & xs & Hg & CP & M & GS & EX & CH & _). set (sh := fun _ : list Z => repeat 0 n).
  assert (LS : forall w, length (sh w) = n) by (intros w; apply repeat_length).
  assert (BR : negl n (fun x => gcoeff (gpoints points) x - lsum (map (fun c : vcone => hfun n (q_mode P) (fst (fst c)) (snd (fst c)) (vsub x (sh (snd c)))) cones))).
  { refine (negl_ext n _ _ _ (brion_points n rows vs points AV IP)). intros x Hx. cbv beta. unfold sh. rewrite (vsub_zero n x Hx), (HT x Hx). lia. }
  destruct (passed_generate n sh P cones pss xs points g (fun c Hc => conj (proj2 (HC c Hc)) (LS _)) CP M GS EX (points_len n rows points IP) BR) as (GEN & FG & NZ).
  destruct (residue_chain P g xs _ _ CH) as (C1 & C2 & C3). cbn [fst snd] in C1, C2. cbn [outcome_ok]. intros M0 NS B. cbn [fst snd] in *.
  rewrite C1, Z.add_0_l. apply (rounding _ n); [lia|specialize (C3 M0 NS); lia|].
  pose proof (btotal_count n g (map (gcone_of sh) xs) points FG NZ (points_len n rows points IP) GEN) as GT. fold (qnat (length points)). rewrite <- GT, qsum_map, <- qsum_scale. unfold terms. rewrite qsum_flat. apply qsum_ext. intros [[[w v] d] pts] Hx. rewrite qsum_map. unfold gcone_of. cbn [fst snd]. rewrite Forall_forall in EX. destruct (EX _ Hx) as (_ & ((LR & _) & _) & _ & HP).
  unfold resB, scal. rewrite map_length, LR. rewrite <- qsum_scale, <- !qsum_scale. rewrite !qsum_map. apply qsum_ext. intros p Hp. unfold term. rewrite LR. unfold sh. rewrite (vadd_zero n p) by (apply HP, Hp). transitivity ((inject_Z (sgn n) * inject_Z (sgn n)) * (inject_Z (b_coef d) * qF (map (zdot g) (s_rays (b_cone d))) (zdot g p) n))%Q; [rewrite sgn_sq'; ring|ring].
Qed.
End Final.
