(** Approximation: when no cone met has an integer point on a wall. *)
From Coq Require Import QArith Qfield Lqa.
From Verif Require Import Common SmithSpec ZMat Hermite HermiteProofs Det DetProofs RatVec RatVecSpec RatVecProofs Piped PipedSpec PipedProofs PipedProofs3 PipedProofs4 ConeSpec ConeProofs Irrational IrrationalProofs3 IntegMath Series DecompProofs Exponential ExpSpec ExpProofs ExpProofs2 ExpProofs3 ExpProofs4 CountSpec Barvinok BarvinokSpec BarvinokProofs BarvinokProofs2 BarvinokProofs3 BarvinokProofs4 P_Barvinok BrionLinear BrionProofs BrionProofs2 BrionProofs3 EulerProofs BrionProofs4 BrionProofs5 Count CountProofs CountProofs2 CountProofs3 CountProofs4 CountProofs5 Approx ApproxProofs ApproxProofs2 ApproxProofs3 ApproxProofs4.
Open Scope Z_scope.
Section Met.
Context (P : params) (n : nat) (size : Z) (g : list Z) (pick : astate -> nat) (G : rvec * bcone -> Prop).
Context (GC : forall v d ch dets d', G (v, d) -> step (q_sv P) (q_omega P) (q_ker P) n d = Ok (Some (ch, dets)) -> In (Some d') ch -> G (v, d')).
Definition inv (st : astate) : Prop := Forall (fun h : hitem => G (fst h)) (a_heap st) /\ Forall G (a_met st).
Lemma evaluate_inv v d st st' : G (v, d) -> inv st -> evaluate P n size g v d st = Ok st' -> inv st'.
Proof.
  intros GV [H1 H2] E. unfold evaluate in E. destruct (_ <=? _).
  - destruct (residue_weights _ _); cbn [bind] in E; [|discriminate]. destruct (scalar_products _ _ _ _ _ _); cbn [bind] in E; [|discriminate]. destruct (residue_single _ _ _); cbn [bind] in E; [|discriminate]. injection E as <-. split; cbn [a_heap a_met]; [exact H1|]. apply Forall_app. split; [exact H2|]. apply Forall_cons; [exact GV|constructor].
  - destruct (cone_bounds _ _ _ _) as [b|e]; cbn [bind] in E; [|discriminate]. destruct (_ <? _); [|discriminate]. injection E as <-. split; cbn [a_heap a_met]; apply Forall_app; (split; [assumption|]); apply Forall_cons; [exact GV|constructor|exact GV|constructor].
Qed.
Lemma fold_inv {A} (f : A -> astate -> outcome astate) l : (forall x st st', In x l -> inv st -> f x st = Ok st' -> inv st') -> forall st st', inv st -> fold_out f l st = Ok st' -> inv st'.
Proof.
  induction l as [|x l IH]; intros H st st' Hi E; cbn [fold_out] in E; [injection E as <-; exact Hi|]. destruct (f x st) as [st1|e] eqn:E1; cbn [bind] in E; [|discriminate]. exact (IH (fun y s s' Hy => H y s s' (or_intror Hy)) st1 st' (H x st st1 (or_introl eq_refl) Hi E1) E).
Qed.
Lemma refine_inv f : forall st st', inv st -> refine f P n size g pick st = Ok st' -> inv st'.
Proof.
  induction f as [|f IH]; intros st st' Hi E; [discriminate|]. cbn [refine] in E. destruct (a_heap st) as [|h0 hs] eqn:EH; [injection E as <-; exact Hi|]. rewrite <- EH in E. destruct (nth_error (a_heap st) (pick st)) as [[[v d] b]|] eqn:EN; [|discriminate]. destruct Hi as [H1 H2].
  assert (GV : G (v, d)) by (rewrite Forall_forall in H1; exact (H1 _ (nth_error_In _ _ EN))).
  assert (HR : Forall (fun h : hitem => G (fst h)) (firstn (pick st) (a_heap st) ++ skipn (S (pick st)) (a_heap st))).
  { rewrite Forall_forall in *. intros h Hh. apply H1. apply in_app_iff in Hh as [Hh|Hh]; [rewrite <- (firstn_skipn (pick st) (a_heap st))|rewrite <- (firstn_skipn (S (pick st)) (a_heap st))]; apply in_app_iff; auto. }
  destruct (step (q_sv P) (q_omega P) (q_ker P) n d) as [[[ch dets]|]|e] eqn:ES; cbn [bind] in E; [| |discriminate].
  - match type of E with bind ?X _ = _ => destruct X as [st2|e] eqn:EC end; cbn [bind] in E; [|discriminate]. refine (IH st2 st' _ E). unfold evaluate_children in EC. refine (fold_inv _ ch _ _ st2 _ EC); [|split; assumption].
    intros [d'|] s s' Ho Hs E'; [exact (evaluate_inv v d' s s' (GC v d ch dets d' GV ES Ho) Hs E')|injection E' as <-; exact Hs].
  - refine (IH _ st' _ E). split; assumption.
Qed.
Lemma cones_inv (cones : list vcone) r : (forall c t st st', In c cones -> In t (q_tri P (snd (fst c))) -> inv st -> consume P n size g (fst (fst c)) t st = Ok st' -> inv st') -> approximate_cones P n size g pick cones = Ok r -> Forall G (snd r).
Proof.
  intros HC E. unfold approximate_cones in E. destruct (consume_cones P n size g cones initial) as [st0|e] eqn:E0; cbn [bind] in E; [|discriminate]. destruct (refine (q_fuel P) P n size g pick st0) as [st1|e] eqn:E1; cbn [bind] in E; [|discriminate]. injection E as <-. cbn [snd].
  refine (proj2 (refine_inv _ st0 st1 _ E1)). unfold consume_cones in E0. refine (fold_inv _ cones _ initial st0 _ E0); [|split; constructor].
  intros c st st' Hc Hs E. refine (fold_inv _ _ _ st st' Hs E). intros t s s' Ht Hs' E'. exact (HC c t s s' Hc Ht Hs' E').
Qed.
End Met.
(** The vertices of the cones met. *)
Definition moved (P : params) (n : nat) (v : rvec) : Prop := exists c v0, cone_ok n c /\ usable n v0 /\ irrationalize (q_depth P) n c v0 = Ok v.
Lemma consume_moved P n size g v t st st' : (0 < n)%nat -> q_mode P = IrrationalPrimalDecomposition -> usable n v -> n_vectors n t -> lin_indep n t -> rays_primitive n t ->
  inv (fun vd => moved P n (fst vd) /\ cone_full n (b_cone (snd vd))) st -> consume P n size g v t st = Ok st' -> inv (fun vd => moved P n (fst vd) /\ cone_full n (b_cone (snd vd))) st'.
Proof.
  intros Hn M UV NV LI PR Hi E. destruct (det_and_facets_full n t NV (indep_det n t LI)) as (c & EC & FC & ER). unfold consume in E. rewrite (proj1 NV), Nat.eqb_refl, EC, M in E. cbn [negb bind] in E.
  pose proof (swap_full n c FC ltac:(now rewrite ER)) as FS. destruct (irrationalize (q_depth P) n (swap_cone c) v) as [nv|e] eqn:EI; cbn [bind] in E; [|discriminate]. refine (evaluate_inv P n size g _ nv (mkB 1 (swap_cone c)) st st' _ Hi E). cbn [fst snd b_cone]. split; [|exact FS]. exists (swap_cone c), v. split; [exact (proj1 FS)|auto].
Qed.
Lemma small_off_walls P n v d : (0 < n)%nat -> moved P n v -> cone_full n (b_cone d) -> (forall i k, Z.abs (vat (s_facets (b_cone d)) i k) <= 8 * (Z.of_nat n ^ Z.of_nat (q_depth P)) ^ Z.of_nat (n - 1)) ->
  forall x, ~ on_wall n (coord v) (s_rays (b_cone d)) (zpoint x).
Proof.
  intros Hn (c & v0 & OC & (RV & DV) & EI) [OD _] SM x W. destruct (irrationalize_main (q_depth P) n c v0 Hn OC RV DV) as (nv & E1 & _ & _ & _ & _ & SF). rewrite EI in E1. injection E1 as <-.
  apply (on_wall_iff n (b_cone d) OD) in W as (i & Hi & EQ). rewrite phi_zpoint in EQ.
  assert (NR : In (nth 0 (s_rays c) []) (s_rays c)) by (apply nth_In; destruct OC as ((L & _) & _); lia).
  destruct (ray_nonzero n (mkB 1 c) (nth 0 (s_rays c) []) OC NR) as (k0 & Hk0 & Nk0).
  refine (SF (Z.abs (nth k0 (nth 0 (s_rays c) []) 0)) (fun k => vat (s_facets (b_cone d)) i k) _ _ _ _ (Qeq_sym _ _ EQ)).
  - exists 0%nat, k0. reflexivity.
  - intros k Hk. etransitivity; [apply SM|]. apply Z.mul_le_mono_nonneg_l; [lia|]. apply Z.pow_le_mono_l. pose proof (Z.pow_nonneg (Z.of_nat n) (Z.of_nat (q_depth P)) ltac:(lia)). nia.
  - destruct OD as (_ & _ & _ & (_ & _ & _ & _ & PF) & _). exact (PF i Hi).
Qed.
Theorem small_run_irrational P n size g pick (cones : list vcone) r : (0 < n)%nat -> relation_contract (q_ker P) -> omega_contract (q_omega P) -> q_mode P = IrrationalPrimalDecomposition ->
  (forall c, In c cones -> usable n (fst (fst c)) /\ triangulates n (snd (fst c)) (q_tri P (snd (fst c))) /\ (forall t, In t (q_tri P (snd (fst c))) -> rays_primitive n t)) ->
  approximate_cones P n size g pick cones = Ok r ->
  (forall v d i k, In (v, d) (snd r) -> Z.abs (vat (s_facets (b_cone d)) i k) <= 8 * (Z.of_nat n ^ Z.of_nat (q_depth P)) ^ Z.of_nat (n - 1)) -> off_walls n (snd r).
Proof.
  intros Hn KC OC M HC E SM. set (G := fun vd : rvec * bcone => moved P n (fst vd) /\ cone_full n (b_cone (snd vd))).
  assert (F : Forall G (snd r)).
  { refine (cones_inv P n size g pick G _ cones r _ E).
    - intros v d ch dets d' [G1 G2] ES Ho. cbn [fst snd] in *. split; [exact G1|]. exact (proj1 (child_full (q_sv P) (q_omega P) (q_ker P) n Hn KC OC d ch dets d' G2 ES Ho)).
    - intros c t st st' Hc Ht Hi E'. destruct (HC c Hc) as (UV & TR & PR). destruct (proj1 TR t Ht) as [NV LI]. exact (consume_moved P n size g _ t st st' Hn M UV NV LI (PR t Ht) Hi E'). }
  intros v d x Hd. rewrite Forall_forall in F. destruct (F _ Hd) as [G1 G2]. exact (small_off_walls P n v d Hn G1 G2 (fun i k => SM v d i k Hd) x).
Qed.
(** The first cones are never met on a wall. *)
Theorem first_irrational P n size g (cones : list vcone) st0 : (0 < n)%nat -> q_mode P = IrrationalPrimalDecomposition ->
  (forall c, In c cones -> usable n (fst (fst c)) /\ triangulates n (snd (fst c)) (q_tri P (snd (fst c))) /\ (forall t, In t (q_tri P (snd (fst c))) -> rays_primitive n t)) ->
  consume_cones P n size g cones initial = Ok st0 -> off_walls n (a_met st0).
Proof.
  intros Hn M HC E. set (G := fun vd : rvec * bcone => forall x, ~ on_wall n (coord (fst vd)) (s_rays (b_cone (snd vd))) (zpoint x)).
  assert (F : inv G st0).
  { unfold consume_cones in E. refine (fold_inv G _ cones _ initial st0 _ E); [|split; constructor]. intros c st st' Hc Hs E1. refine (fold_inv G _ _ _ st st' Hs E1). intros t s s' Ht Hi E2. destruct (HC c Hc) as ((RV & DV) & TR & PR). destruct (proj1 TR t Ht) as [NV LI]. destruct (det_and_facets_full n t NV (indep_det n t LI)) as (c0 & EC & FC & ER). unfold consume in E2. rewrite (proj1 NV), Nat.eqb_refl, EC, M in E2. cbn [negb bind] in E2.
    pose proof (swap_full n c0 FC ltac:(rewrite ER; exact (PR t Ht))) as FS. destruct (irrationalize_main (q_depth P) n (swap_cone c0) _ Hn (proj1 FS) RV DV) as (nv & EI & _ & _ & _ & OW & _). rewrite EI in E2. cbn [bind] in E2. exact (evaluate_inv P n size g G nv (mkB 1 (swap_cone c0)) s s' OW Hi E2). }
  intros v d x Hd. destruct F as [_ F]. rewrite Forall_forall in F. exact (F _ Hd x).
Qed.
