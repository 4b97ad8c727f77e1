(** Approximation: the first cones, termination, the final bounds. *)
From Coq Require Import QArith Qfield Lqa.
From Verif Require Import Common SmithSpec ZMat Hermite HermiteProofs Det DetProofs RatVec RatVecSpec RatVecProofs Piped PipedSpec PipedProofs PipedProofs3 PipedProofs4 ConeSpec ConeProofs Irrational IrrationalProofs3 IntegMath Exponential ExpSpec ExpProofs ExpProofs2 ExpProofs3 ExpProofs4 CountSpec Barvinok BarvinokSpec BarvinokProofs BarvinokProofs2 BarvinokProofs3 BarvinokProofs4 P_Barvinok BrionLinear BrionProofs BrionProofs2 BrionProofs3 EulerProofs BrionProofs4 BrionProofs5 Count CountProofs CountProofs2 CountProofs3 CountProofs4 CountProofs5 Approx ApproxProofs ApproxProofs2.
Open Scope Z_scope.

(** The first cone of a cone of the triangulation. *)
Definition root_for (P : params) (n : nat) (v : rvec) (t : list (list Z)) (v' : rvec) (c' : scone) : Prop :=
  (forall f1 f2 size g st, consume (fueled P f1 f2) n size g v t st = evaluate (fueled P f1 f2) n size g v' (mkB 1 c') st) /\ usable n v' /\ cone_full n c' /\
  ((forall x, ~ on_wall n (coord v') (s_rays c') (zpoint x)) -> pieceok (q_mode P) n v t (v', [mkB 1 c'])).
Lemma one_count (inside : list (list Z) -> Prop) (r : list (list Z)) (X : Prop) : (X <-> inside r) -> counts_to inside [(1, r)] 1 X.
Proof. intros E. split; intros H; [apply (sc_in inside 1 r [] 0); [tauto|constructor]|apply (sc_out inside 1 r [] 0); [tauto|constructor]]. Qed.
Lemma root_exists P n v t : (0 < n)%nat -> usable n v -> n_vectors n t -> lin_indep n t -> q_mode P <> DualDecomposition -> (q_mode P = IrrationalPrimalDecomposition -> rays_primitive n t) -> exists v' c', root_for P n v t v' c'.
Proof.
  intros Hn UV NV LI MD PR. destruct (det_and_facets_full n t NV (indep_det n t LI)) as (c & E & FC & ER). pose proof FC as [OK _]. unfold root_for, consume. cbn [fueled q_mode q_depth]. rewrite (proj1 NV), Nat.eqb_refl, E. cbn [negb bind]. destruct (q_mode P) eqn:M; [contradiction| |].
  - pose proof (swap_full n c FC ltac:(rewrite ER; now apply PR)) as FS. destruct UV as [RV Dv]. destruct (irrationalize_main (q_depth P) n (swap_cone c) v Hn (proj1 FS) RV Dv) as (nv & EI & Dnv & (k2 & R2) & PTS & _). exists nv, (swap_cone c). rewrite EI. cbn [bind]. split; [reflexivity|]. split; [split; [exists nonzero, k2; auto|exact Dnv]|]. split; [exact FS|].
    intros _. cbn [pieceok fst snd pairs map b_coef b_cone]. intros x. apply one_count. rewrite <- PTS. rewrite <- ER. change (s_rays c) with (s_facets (swap_cone c)). rewrite (polar_iff n v (swap_cone c)). now rewrite (in_cone_iff n _ (proj1 FS)).
  - exists v, c. split; [reflexivity|]. split; [exact UV|]. split; [exact FC|]. intros OW. rewrite ER in OW. cbn [pieceok fst snd pairs map b_coef b_cone]. split; [reflexivity|]. split; [exact OW|]. intros x. apply one_count. rewrite ER. tauto.
Qed.
(** All the cones that can arise. *)
Lemma nodes_exist P n (L : list (rvec * list (list Z))) : (0 < n)%nat -> relation_contract (q_ker P) -> omega_contract (q_omega P) -> (forall v t, In (v, t) L -> exists v' c', root_for P n v t v' c') ->
  exists NODES, (forall v d, In (v, d) NODES -> usable n v /\ cone_full n (b_cone d)) /\
    (forall v d ch dets d', In (v, d) NODES -> step (q_sv P) (q_omega P) (q_ker P) n d = Ok (Some (ch, dets)) -> In (Some d') ch -> In (v, d') NODES) /\
    (forall v t, In (v, t) L -> exists v' c', root_for P n v t v' c' /\ In (v', mkB 1 c') NODES).
Proof.
  intros Hn KC OC. induction L as [|[v t] L IH]; intros HL; [exists []; split; [intros v d []|split; [intros v d ch dets d' []|intros v t []]]|].
  destruct (IH (fun v0 t0 H0 => HL v0 t0 (or_intror H0))) as (ND & G1 & G2 & G3). destruct (HL v t (or_introl eq_refl)) as (v' & c' & RF). pose proof RF as (_ & UV & FC & _).
  set (nn := nodes (q_sv P) (q_omega P) (q_ker P) n (S (Z.to_nat (Z.abs (s_det c')))) (mkB 1 c')).
  exists (map (pair v') nn ++ ND). split; [|split].
  - intros v0 d0 H0. apply in_app_iff in H0 as [H0|H0]; [|now apply G1]. apply in_map_iff in H0 as (d & E & Hd). injection E as <- <-. split; [exact UV|]. exact (proj1 (nodes_ok (q_sv P) (q_omega P) (q_ker P) n Hn KC OC _ (mkB 1 c') FC d Hd)).
  - intros v0 d0 ch dets d' H0 ES Ho. apply in_app_iff in H0 as [H0|H0]; [|apply in_app_iff; right; exact (G2 v0 d0 ch dets d' H0 ES Ho)]. apply in_map_iff in H0 as (d & E & Hd). injection E as <- <-. apply in_app_iff. left. apply in_map. apply (nodes_closed (q_sv P) (q_omega P) (q_ker P) n Hn KC OC (S (Z.to_nat (Z.abs (s_det c')))) (mkB 1 c') FC ltac:(cbn [b_cone]; lia) d ch dets d' Hd ES Ho).
  - intros v0 t0 [E|H0]; [injection E as <- <-; exists v', c'; split; [exact RF|]; apply in_app_iff; left; apply in_map; unfold nn; cbn [nodes]; now left|]. destruct (G3 v0 t0 H0) as (v1 & c1 & R1 & I1). exists v1, c1. split; [exact R1|]. apply in_app_iff. now right.
Qed.

(** A measure of the work left. *)
Definition mu (n : nat) (d : bcone) : Z := (Z.of_nat n + 1) ^ Z.abs (s_det (b_cone d)).
Definition W (n : nat) (l : list hitem) : Z := fold_right (fun h a => mu n (snd (fst h)) + a) 0 l.
Lemma mu_pos n d : 1 <= mu n d.
Proof. unfold mu. pose proof (Z.pow_pos_nonneg (Z.of_nat n + 1) (Z.abs (s_det (b_cone d))) ltac:(lia) ltac:(lia)). lia. Qed.
Lemma W_cons n h l : W n (h :: l) = mu n (snd (fst h)) + W n l.
Proof. reflexivity. Qed.
Lemma W_app n a b : W n (a ++ b) = W n a + W n b.
Proof. induction a as [|h a IH]; cbn [app]; [reflexivity|]. rewrite !W_cons. lia. Qed.
Lemma W_len n l : Z.of_nat (length l) <= W n l.
Proof. induction l as [|h l IH]; cbn [length]; [cbn; lia|]. rewrite W_cons. pose proof (mu_pos n (snd (fst h))). lia. Qed.
Lemma W_remove n l k h : nth_error l k = Some h -> W n (firstn k l ++ skipn (S k) l) = W n l - mu n (snd (fst h)).
Proof.
  intros E. apply nth_error_split in E as (l1 & l2 & -> & <-). rewrite firstn_app, Nat.sub_diag, firstn_all, firstn_O, app_nil_r, skipn_app. rewrite skipn_all2 by lia. replace (S (length l1) - length l1)%nat with 1%nat by lia. cbn [skipn app]. rewrite !W_app, W_cons. lia.
Qed.
Definition MU (n : nat) (ds : list bcone) : Z := fold_right (fun d a => mu n d + a) 0 ds.
Lemma MU_children n ch k : Z.of_nat (length ch) <= Z.of_nat n -> 0 <= k -> (forall d, In (Some d) ch -> Z.abs (s_det (b_cone d)) <= k) -> MU n (children_list ch) <= Z.of_nat n * (Z.of_nat n + 1) ^ k.
Proof.
  intros L K H. assert (G : MU n (children_list ch) <= Z.of_nat (length ch) * (Z.of_nat n + 1) ^ k).
  { clear L. induction ch as [|[d|] ch IH]; [cbn; lia| |].
    - specialize (IH (fun d' Hd => H d' (or_intror Hd))). cbn [children_list flat_map app MU fold_right length]. fold (children_list ch). fold (MU n (children_list ch)). assert (mu n d <= (Z.of_nat n + 1) ^ k) by (unfold mu; apply Z.pow_le_mono_r; [lia|apply H; now left]). nia.
    - specialize (IH (fun d' Hd => H d' (or_intror Hd))). cbn [children_list flat_map app length]. fold (children_list ch). pose proof (Z.pow_pos_nonneg (Z.of_nat n + 1) k ltac:(lia) K). nia. }
  pose proof (Z.pow_pos_nonneg (Z.of_nat n + 1) k ltac:(lia) K). nia.
Qed.

Section Run.
Context (P0 : params) (f1 f2 : nat) (n : nat) (size : Z) (g : list Z) (NODES : list (rvec * bcone)) (pick : astate -> nat).
Let P := fueled P0 f1 f2.
Context (Hn : (0 < n)%nat) (KC : relation_contract (q_ker P)) (OC : omega_contract (q_omega P)) (XG : xgcd_contract (q_xg P)) (Lg : length g = n) (LLL : q_sv P = LatteLLL).
Context (NG : forall v d, In (v, d) NODES -> usable n v /\ cone_full n (b_cone d)).
Context (NC : forall v d ch dets d', In (v, d) NODES -> step (q_sv P) (q_omega P) (q_ker P) n d = Ok (Some (ch, dets)) -> In (Some d') ch -> In (v, d') NODES).
Context (NF : forall v d, In (v, d) NODES -> Z.abs (s_det (b_cone d)) <= int_max -> exists pts, exact_points n ([], v, d, pts) /\ scalar_products (q_fuel2 P) (q_xg P) n (b_cone d) v g = Ok (map (zdot g) pts)).
Definition bad (e : err) : Prop :=
  e = Thrown /\ (exists v d, In (v, d) NODES /\ ~ generic_for g d) \/ e = Exited /\ int_max < q_max_det P \/
  e = AssertFail /\ (q_max_det P < 1 \/ ~ decreasing n (q_omega P)) \/ e = OutOfBounds /\ exists st, a_heap st <> [] /\ (length (a_heap st) <= pick st)%nat.
Notation st_ok := (st_ok n g NODES).
Notation T := (T n).
Lemma eval_total v d st D H : st_ok st D H -> In (v, d) NODES -> W n (a_heap st) < size ->
  match evaluate P n size g v d st with
  | Ok st' => W n (a_heap st') <= W n (a_heap st) + mu n d
  | Err e => bad e
  end.
Proof.
  intros SO HN HW. pose proof (evaluate_ok P n size g NODES Hn XG Lg NG NF v d st D H SO HN) as EV. destruct (evaluate P n size g v d st) as [st'|e].
  - destruct EV as (_ & _ & _ & _ & _ & _ & EH). pose proof (mu_pos n d). destruct (_ <=? _); [rewrite EH; lia|]. destruct EH as (b & ->). rewrite W_app, W_cons. cbn [fst snd]. change (W n []) with 0. lia.
  - destruct EV as [[-> G]|[[-> G]|[-> G]]]; [left; split; [reflexivity|]; exists v, d; auto|right; left; auto|]. pose proof (W_len n (a_heap st)). lia.
Qed.
Lemma children_total v ch : (forall d, In (Some d) ch -> In (v, d) NODES) -> forall st D H, st_ok st D H -> W n (a_heap st) + MU n (children_list ch) < size ->
  match evaluate_children P n size g v ch st with
  | Ok st' => W n (a_heap st') <= W n (a_heap st) + MU n (children_list ch)
  | Err e => bad e
  end.
Proof.
  unfold evaluate_children. induction ch as [|[d|] ch IH]; intros HI st D H SO HW; cbn [fold_out].
  - cbn [children_list flat_map MU fold_right]. lia.
  - cbn [children_list flat_map app MU fold_right] in *. fold (children_list ch) in *. fold (MU n (children_list ch)) in *.
    assert (MUP : 0 <= MU n (children_list ch)). { clear. induction (children_list ch) as [|d l IH]; cbn [MU fold_right]; [lia|]. fold (MU n l). pose proof (mu_pos n d). lia. }
    pose proof (mu_pos n d). pose proof (eval_total v d st D H SO (HI d (or_introl eq_refl)) ltac:(lia)) as ET. pose proof (evaluate_ok P n size g NODES Hn XG Lg NG NF v d st D H SO (HI d (or_introl eq_refl))) as EV.
    destruct (evaluate P n size g v d st) as [st1|e]; cbn [bind]; [|exact ET]. destruct EV as (D1 & H1 & SO1 & _). specialize (IH (fun d' Hd => HI d' (or_intror Hd)) st1 D1 H1 SO1 ltac:(lia)). destruct (fold_out _ ch st1); [lia|exact IH].
  - cbn [bind]. exact (IH (fun d' Hd => HI d' (or_intror Hd)) st D H SO HW).
Qed.
Lemma det_pos v d : In (v, d) NODES -> 1 <= Z.abs (s_det (b_cone d)).
Proof. intros HN. destruct (NG v d HN) as [_ [(_ & _ & D0 & _) _]]. lia. Qed.
Lemma step_total v d : In (v, d) NODES -> q_max_det P < Z.abs (s_det (b_cone d)) ->
  match step (q_sv P) (q_omega P) (q_ker P) n d with
  | Ok None => False
  | Ok (Some (ch, _)) => length ch = n
  | Err e => bad e
  end.
Proof.
  intros HN BG. destruct (NG v d HN) as [_ FC]. destruct d as [coef c]. cbn [b_cone] in *. pose proof (step_spec (q_sv P) (q_omega P) (q_ker P) n Hn KC OC coef c FC) as SS. destruct (step (q_sv P) (q_omega P) (q_ker P) n (mkB coef c)) as [[[ch dets]|]|e].
  - destruct SS as (z & _ & _ & _ & [LC _]). exact LC.
  - rewrite LLL in SS. discriminate SS.
  - destruct SS as (-> & _ & SD). right. right. left. split; [reflexivity|]. destruct (Z.lt_ge_cases (q_max_det P) 1) as [M|M]; [left; exact M|right]. intros DE. pose proof FC as [(NV & ED & D0 & _) _].
    assert (LI : lin_indep n (s_rays c)) by (apply det_indep; now rewrite <- ED). specialize (DE (s_rays c) NV LI). unfold lowers in DE. rewrite <- ent_vat, <- ED in DE. destruct (DE ltac:(lia)) as [DL|DL]; [destruct (SD 0%nat (or_introl eq_refl)) as (k & Hk & LE)|destruct (SD 2%nat (or_intror eq_refl)) as (k & Hk & LE)]; specialize (DL k Hk); rewrite <- upd_split in DL by (destruct NV; lia); rewrite <- ent_vat in DL; lia.
Qed.
(** The heap only has cones above the bound. *)
Definition big (st : astate) : Prop := Forall (fun h : hitem => q_max_det P < Z.abs (s_det (b_cone (snd (fst h))))) (a_heap st).
Lemma eval_big v d st st' D H : st_ok st D H -> In (v, d) NODES -> big st -> evaluate P n size g v d st = Ok st' -> big st'.
Proof.
  intros SO HN B E. pose proof (evaluate_ok P n size g NODES Hn XG Lg NG NF v d st D H SO HN) as EV. rewrite E in EV. destruct EV as (_ & _ & _ & _ & _ & _ & EH). unfold big in *. destruct (Z.leb_spec (Z.abs (s_det (b_cone d))) (q_max_det P)); [now rewrite EH|]. destruct EH as (b & ->). apply Forall_app. split; [exact B|]. apply Forall_cons; [exact H0|constructor].
Qed.
Lemma children_big v ch : (forall d, In (Some d) ch -> In (v, d) NODES) -> forall st D H st', st_ok st D H -> big st -> evaluate_children P n size g v ch st = Ok st' -> big st'.
Proof.
  unfold evaluate_children. induction ch as [|[d|] ch IH]; intros HI st D H st' SO B E; cbn [fold_out] in E; [injection E as <-; exact B| |].
  - pose proof (evaluate_ok P n size g NODES Hn XG Lg NG NF v d st D H SO (HI d (or_introl eq_refl))) as EV. destruct (evaluate P n size g v d st) as [st1|e] eqn:E1; cbn [bind] in E; [|discriminate]. destruct EV as (D1 & H1 & SO1 & _). apply (IH (fun d' Hd => HI d' (or_intror Hd)) st1 D1 H1 st' SO1); [exact (eval_big v d st st1 D H SO (HI d (or_introl eq_refl)) B E1)|exact E].
  - cbn [bind] in E. exact (IH (fun d' Hd => HI d' (or_intror Hd)) st D H st' SO B E).
Qed.
Lemma refine_total f : forall st D H, st_ok st D H -> big st -> W n (a_heap st) < Z.of_nat f -> W n (a_heap st) < size ->
  match refine f P n size g pick st with Ok _ => True | Err e => bad e end.
Proof.
  induction f as [|f IH]; intros st D H SO B HF HS; [pose proof (W_len n (a_heap st)); lia|]. cbn [refine]. destruct (a_heap st) as [|h0 hs] eqn:EH; [exact I|]. rewrite <- EH in *. destruct (nth_error (a_heap st) (pick st)) as [[[v d] b]|] eqn:EN.
  2: { right. right. right. split; [reflexivity|]. exists st. split; [rewrite EH; discriminate|]. now apply nth_error_None. }
  destruct (remove_ok n g NODES Hn Lg st D H _ v d b SO EN) as (H1 & x & H2 & EH2 & Vx & SO1).
  assert (HN : In (v, d) NODES). { destruct SO as (_ & XH & _). rewrite Forall_forall in XH. rewrite <- Vx. apply (XH x). rewrite EH2. apply in_app_iff. right. now left. }
  assert (BG : q_max_det P < Z.abs (s_det (b_cone d))). { unfold big in B. rewrite Forall_forall in B. exact (B _ (nth_error_In _ _ EN)). }
  assert (B1 : big (mkA (a_lower st - fst b) (a_upper st - snd b) (firstn (pick st) (a_heap st) ++ skipn (S (pick st)) (a_heap st)) (a_met st) (a_shown st ++ [(a_lower st, a_upper st)]))).
  { unfold big in *. cbn [a_heap]. apply nth_error_split in EN as (l1 & l2 & EQ & EK). rewrite <- EK, EQ in *. rewrite firstn_app, Nat.sub_diag, firstn_all, firstn_O, app_nil_r, skipn_app. rewrite skipn_all2 by lia. replace (S (length l1) - length l1)%nat with 1%nat by lia. cbn [skipn app]. apply Forall_app in B as [BA BB]. inversion BB; subst. apply Forall_app. auto. }
  pose proof (W_remove n (a_heap st) _ _ EN) as WR. cbn [fst snd] in WR. pose proof (step_total v d HN BG) as ST. destruct (step (q_sv P) (q_omega P) (q_ker P) n d) as [[[ch dets]|]|e] eqn:ES; cbn [bind]; [|destruct ST|exact ST].
  assert (HC : forall d', In (Some d') ch -> In (v, d') NODES) by (intros d' Hd; exact (NC v d ch dets d' HN ES Hd)).
  pose proof (det_pos v d HN) as DP.
  assert (MC : MU n (children_list ch) < mu n d).
  { pose proof (MU_children n ch (Z.abs (s_det (b_cone d)) - 1) ltac:(lia) ltac:(lia)) as MC. assert (X : forall d', In (Some d') ch -> Z.abs (s_det (b_cone d')) <= Z.abs (s_det (b_cone d)) - 1) by (intros d' Hd; pose proof (proj2 (child_full (q_sv P) (q_omega P) (q_ker P) n Hn KC OC d ch dets d' (proj2 (NG v d HN)) ES Hd)); lia). specialize (MC X).
    unfold mu. replace (Z.abs (s_det (b_cone d))) with (Z.succ (Z.abs (s_det (b_cone d)) - 1)) at 1 by lia. rewrite Z.pow_succ_r by lia. pose proof (Z.pow_pos_nonneg (Z.of_nat n + 1) (Z.abs (s_det (b_cone d)) - 1) ltac:(lia) ltac:(lia)). nia. }
  set (st1 := mkA _ _ _ _ _) in *. assert (W1 : W n (a_heap st1) = W n (a_heap st) - mu n d) by exact WR.
  pose proof (children_total v ch HC st1 D (H1 ++ H2) SO1 ltac:(lia)) as CT. destruct (evaluate_children P n size g v ch st1) as [st2|e] eqn:EC; cbn [bind]; [|exact CT].
  destruct (children_ok P n size g NODES Hn XG Lg NG NF v ch HC st1 D (H1 ++ H2) st2 SO1 EC) as (D2 & H3 & SO2 & _).
  apply (IH st2 D2 H3 SO2); [exact (children_big v ch HC st1 D (H1 ++ H2) st2 SO1 B1 EC)|lia|lia].
Qed.
(** The first cones. *)
Definition root_in (v : rvec) (t : list (list Z)) : Prop := exists v' c', root_for P0 n v t v' c' /\ In (v', mkB 1 c') NODES.
Context (K : Z) (HK : forall v d, In (v, d) NODES -> Z.abs (s_det (b_cone d)) <= K).
Lemma mu_K v d : In (v, d) NODES -> mu n d <= (Z.of_nat n + 1) ^ K.
Proof. intros HN. unfold mu. apply Z.pow_le_mono_r; [lia|exact (HK v d HN)]. Qed.
Lemma tri_ok v ts : (forall t, In t ts -> root_in v t) -> forall st D H, st_ok st D H -> big st -> W n (a_heap st) + Z.of_nat (length ts) * (Z.of_nat n + 1) ^ K < size ->
  match fold_out (consume P n size g v) ts st with
  | Ok st' => W n (a_heap st') <= W n (a_heap st) + Z.of_nat (length ts) * (Z.of_nat n + 1) ^ K /\ big st' /\
      exists D' H' ps, st_ok st' D' H' /\ (forall w y, T D' H' y = T D H y + itot n (sh0 n) (flat_map (items_of w) ps) y) /\ incl (a_met st) (a_met st') /\ a_shown st' = a_shown st /\
      (off_walls n (a_met st') -> Forall2 (pieceok (q_mode P) n v) ts ps) /\ length ps = length ts /\ (forall p d, In p ps -> In d (snd p) -> cone_ok n (b_cone d))
  | Err e => bad e
  end.
Proof.
  pose proof (Z.pow_nonneg (Z.of_nat n + 1) K ltac:(lia)) as KP.
  induction ts as [|t ts IH]; intros HR st D H SO B HW; cbn [fold_out].
  - split; [cbn [length]; lia|]. split; [exact B|]. exists D, H, []. split; [exact SO|]. split; [intros w y; unfold itot; cbn; lia|]. split; [apply incl_refl|]. split; [reflexivity|]. split; [intros _; constructor|]. split; [reflexivity|]. intros p d [].
  - destruct (HR t (or_introl eq_refl)) as (v' & c' & (EC & UV & FC & PO) & HN). unfold P at 1. rewrite EC. fold P. pose proof (mu_K v' (mkB 1 c') HN) as MK. cbn [length] in HW.
    pose proof (eval_total v' (mkB 1 c') st D H SO HN ltac:(nia)) as ET. pose proof (evaluate_ok P n size g NODES Hn XG Lg NG NF v' (mkB 1 c') st D H SO HN) as EV. destruct (evaluate P n size g v' (mkB 1 c') st) as [st1|e] eqn:E1; cbn [bind]; [|exact ET].
    destruct EV as (D1 & H1 & SO1 & T1 & M1 & S1 & _). pose proof (eval_big v' (mkB 1 c') st st1 D H SO HN B E1) as B1.
    specialize (IH (fun t' Ht => HR t' (or_intror Ht)) st1 D1 H1 SO1 B1 ltac:(nia)). destruct (fold_out (consume P n size g v) ts st1) as [st2|e]; [|exact IH]. destruct IH as (W2 & B2 & D2 & H2 & ps & SO2 & T2 & I2 & S2 & F2 & L2 & O2).
    split; [cbn [length]; nia|]. split; [exact B2|]. exists D2, H2, ((v', [mkB 1 c']) :: ps). split; [exact SO2|].
    assert (MI : In (v', mkB 1 c') (a_met st2)) by (apply I2; rewrite M1; apply in_app_iff; right; now left).
    split; [|split; [|split; [|split; [|split]]]].
    + intros w y. rewrite (T2 w y), T1. cbn [flat_map]. rewrite (itot_app n (sh0 n)), itot_items. cbn [fst snd]. unfold sh0. lia.
    + intros z Hz. apply I2. rewrite M1. apply in_app_iff. now left.
    + congruence.
    + intros OW. constructor; [|exact (F2 OW)]. apply PO. intros x. exact (OW v' (mkB 1 c') x MI).
    + cbn [length]. now rewrite L2.
    + intros p d [<-|Hp] Hd; [destruct Hd as [<-|[]]; exact (proj1 FC)|exact (O2 p d Hp Hd)].
Qed.
Lemma cones_first cones : (forall c t, In c cones -> In t (q_tri P (snd (fst c))) -> root_in (fst (fst c)) t) -> forall st D H, st_ok st D H -> big st ->
  W n (a_heap st) + Z.of_nat (length (flat_map (fun c : vcone => q_tri P (snd (fst c))) cones)) * (Z.of_nat n + 1) ^ K < size ->
  match consume_cones P n size g cones st with
  | Ok st' => W n (a_heap st') <= W n (a_heap st) + Z.of_nat (length (flat_map (fun c : vcone => q_tri P (snd (fst c))) cones)) * (Z.of_nat n + 1) ^ K /\ big st' /\
      exists D' H' pss, st_ok st' D' H' /\ (forall y, T D' H' y = T D H y + itot n (sh0 n) (flat_map (fun cp => flat_map (items_of (snd (fst cp))) (snd cp)) (List.combine cones pss)) y) /\ incl (a_met st) (a_met st') /\ a_shown st' = a_shown st /\
      (off_walls n (a_met st') -> Forall2 (cone_pieces n P) cones pss) /\ (forall i, In i (flat_map (fun cp => flat_map (items_of (snd (fst cp))) (snd cp)) (List.combine cones pss)) -> cone_ok n (b_cone (snd i)))
  | Err e => bad e
  end.
Proof.
  pose proof (Z.pow_nonneg (Z.of_nat n + 1) K ltac:(lia)) as KP. unfold consume_cones.
  induction cones as [|[[v R] w] cones IH]; intros HR st D H SO B HW; cbn [fold_out].
  - split; [cbn [length flat_map]; lia|]. split; [exact B|]. exists D, H, []. split; [exact SO|]. split; [intros y; unfold itot; cbn; lia|]. split; [apply incl_refl|]. split; [reflexivity|]. split; [intros _; constructor|]. intros i [].
  - cbn [flat_map fst snd] in *. rewrite app_length, Nat2Z.inj_add in *. pose proof (tri_ok v (q_tri P R) (fun t Ht => HR (v, R, w) t (or_introl eq_refl) Ht) st D H SO B ltac:(nia)) as TK. destruct (fold_out (consume P n size g v) (q_tri P R) st) as [st1|e]; cbn [bind]; [|exact TK].
    destruct TK as (W1 & B1 & D1 & H1 & ps & SO1 & T1 & I1 & S1 & F1 & L1 & O1). specialize (IH (fun c t Hc Ht => HR c t (or_intror Hc) Ht) st1 D1 H1 SO1 B1 ltac:(nia)). destruct (fold_out _ cones st1) as [st2|e]; [|exact IH].
    destruct IH as (W2 & B2 & D2 & H2 & pss & SO2 & T2 & I2 & S2 & F2 & O2). split; [nia|]. split; [exact B2|]. exists D2, H2, (ps :: pss). split; [exact SO2|]. split; [|split; [|split; [|split]]].
    + intros y. rewrite T2, (T1 w y). cbn [List.combine flat_map fst snd]. rewrite (itot_app n (sh0 n)). lia.
    + intros z Hz. apply I2, I1, Hz.
    + congruence.
    + intros OW. constructor; [|exact (F2 OW)]. unfold cone_pieces. apply F1. intros v0 d0 x H0. apply OW, I2, H0.
    + intros i Hi. cbn [List.combine flat_map fst snd] in Hi. apply in_app_iff in Hi as [Hi|Hi]; [|exact (O2 i Hi)]. apply in_flat_map in Hi as (p & Hp & Hi). unfold items_of in Hi. apply in_map_iff in Hi as (d & <- & Hd). exact (O1 p d Hp Hd).
Qed.
Lemma initial_ok : st_ok initial [] [].
Proof. unfold ApproxProofs2.st_ok, initial. cbn [a_heap a_lower a_upper qsum]. split; [constructor|]. split; [constructor|]. split; [constructor|]. split; ring. Qed.
End Run.
