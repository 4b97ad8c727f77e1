(** pointsInParallelepiped returns exactly the integer points. *)
From Coq Require Import QArith Permutation.
From Verif Require Import Common ZMat Hermite HermiteProofs Det DetProofs RatVec RatVecSpec RatVecProofs IntComb IntCombSpec IntCombProofs Smith SmithSpec SmithProofs SmithProofs2 SmithProofs3 Piped PipedSpec PipedProofs PipedProofs2 PipedProofs3.
Open Scope Z_scope.

Definition zprod (l : list Z) : Z := fold_right Z.mul 1 l.
(** W diag(nn) = A^T R with W and R unimodular. *)
Definition adapted (n : nat) (A W : zmat) (nn : nat -> Z) : Prop :=
  exists Wi R Ri, meq n n (mmul n W Wi) delta /\ meq n n (mmul n Wi W) delta /\ meq n n (mmul n R Ri) delta /\
  (forall i j, (i < n)%nat -> (j < n)%nat -> W i j * nn j = zsum n (fun k => A k i * R k j)).
Lemma unit_det n M Mi : meq n n (mmul n M Mi) delta -> Z.abs (det n M) = 1.
Proof. intros H. pose proof (det_mul n M Mi) as E. rewrite (det_ext n _ delta H), det_id in E. symmetry in E. destruct (Z.mul_eq_1 _ _ E) as [-> | ->]; reflexivity. Qed.
Lemma adapted_prod n A W nn : adapted n A W nn -> (forall j, (j < n)%nat -> 0 < nn j) -> zprod (map nn (seq 0 n)) = Z.abs (det n A).
Proof.
  intros (Wi & R & Ri & I1 & I2 & I3 & FAC) P.
  assert (E : det n W * zprod (map nn (seq 0 n)) = det n A * det n R).
  { unfold zprod. rewrite <- det_diag, <- det_mul, <- (det_tr n A), <- det_mul. apply det_ext. intros i j Hi Hj. unfold mmul. rewrite (zsum_single n _ j Hj); [rewrite Nat.eqb_refl; now apply FAC|]. intros k Hk N. rewrite (proj2 (Nat.eqb_neq k j)) by auto. ring. }
  apply unit_det in I1. apply unit_det in I3. assert (ZP : 0 < zprod (map nn (seq 0 n))).
  { assert (G : forall l, (forall j, In j l -> (j < n)%nat) -> 0 < zprod (map nn l)); [|apply G; intros j Hj; apply in_seq in Hj; lia].
    induction l as [|j l IH]; intros H; cbn [map zprod fold_right]; [lia|]. apply Z.mul_pos_pos; [apply P, H; now left|apply IH; intros; apply H; now right]. }
  assert (E2 : Z.abs (det n W * zprod (map nn (seq 0 n))) = Z.abs (det n A * det n R)) by congruence. rewrite !Z.abs_mul, I1, I3 in E2. lia.
Qed.
Lemma basis_ok xg n c : xgcd_contract xg -> (0 < n)%nat -> s_det c = det n (ent (s_rays c)) -> s_det c <> 0 ->
  exists fuel mx W, (forall f, (fuel <= f)%nat -> basis f xg n c = Ok (mx, W)) /\ length mx = n /\ (forall j, (j < n)%nat -> 0 < nth j mx 0) /\ adapted n (ent (s_rays c)) W (fun j => nth j mx 0).
Proof.
  intros XG Hn ED DN. set (A := ent (s_rays c)) in *. set (U := tab n (fun i j => A j i)).
  assert (UV : forall i j, (i < n)%nat -> (j < n)%nat -> U i j = A j i) by (intros; unfold U; now rewrite tab_meq).
  destruct (Z.eqb_spec (Z.abs (s_det c)) 1) as [U1|U1].
  - exists 0%nat, (repeat 1 n), (tab n (fun i j => s_det c * U i j)). split; [intros f _; unfold basis; cbv zeta; rewrite (proj2 (Z.eqb_eq _ _) U1); reflexivity|]. split; [apply repeat_length|].
    assert (N1 : forall j, (j < n)%nat -> nth j (repeat 1 n) 0 = 1) by (intros j Hj; rewrite (nth_indep _ 0 1) by (now rewrite repeat_length); apply nth_repeat). split; [intros j Hj; rewrite N1 by auto; lia|].
    assert (SQ : s_det c * s_det c = 1) by nia.
    exists (fun i j => adj n A j i), (fun i j => s_det c * delta i j), (fun i j => s_det c * delta i j). refine (conj _ (conj _ (conj _ _))).
    + intros i j Hi Hj. unfold mmul. rewrite (zsum_ext n _ (fun k => s_det c * (adj n A j k * A k i))) by (intros k Hk; rewrite tab_meq, UV by auto; ring). rewrite zsum_scal. change (s_det c * mmul n (adj n A) A j i = delta i j). rewrite (adj_l n A j i Hj Hi). rewrite <- ED, Z.mul_assoc, SQ. unfold delta. rewrite (Nat.eqb_sym j i). destruct (i =? j)%nat; reflexivity.
    + intros i j Hi Hj. unfold mmul. rewrite (zsum_ext n _ (fun k => s_det c * (A j k * adj n A k i))) by (intros k Hk; rewrite tab_meq, UV by auto; ring). rewrite zsum_scal. change (s_det c * mmul n A (adj n A) j i = delta i j). rewrite (adj_r n A j i Hj Hi). rewrite <- ED, Z.mul_assoc, SQ. unfold delta. rewrite (Nat.eqb_sym j i). destruct (i =? j)%nat; reflexivity.
    + intros i j Hi Hj. unfold mmul. rewrite (zsum_single n _ j Hj); [rewrite delta_eq; replace (s_det c * delta i j * (s_det c * 1)) with (s_det c * s_det c * delta i j) by ring; rewrite SQ; ring|]. intros k Hk N. rewrite (delta_neq k j) by auto. ring.
    + intros i j Hi Hj. rewrite tab_meq, UV, N1 by auto. rewrite (zsum_single n _ j Hj); [rewrite delta_eq; ring|]. intros k Hk N. rewrite (delta_neq k j) by auto. ring.
  - assert (DU : det n U <> 0). { rewrite (det_ext n U (fun i j => A j i)) by (intros i j Hi Hj; now apply UV). rewrite det_tr, <- ED. exact DN. }
    destruct (smith_right xg n U XG Hn DU) as (fuel & D & L & R & G & _ & DP & _ & L' & (W0 & I1 & I2) & (Ri & J1 & J2) & T).
    exists fuel, (map (fun j => D j j) (seq 0 n)), (tab n (fun i j => tab n (mmul n U R) i j / D j j)).
    assert (VW : forall i j, (i < n)%nat -> (j < n)%nat -> mmul n U R i j = W0 i j * D j j).
    { intros i j Hi Hj. transitivity (mmul n W0 (mmul n (mmul n L' U) R) i j).
      - rewrite <- mmul_assoc. unfold mmul at 1 2. apply zsum_ext. intros l Hl. f_equal. symmetry. change (mmul n W0 (mmul n L' U) i l = U i l). rewrite <- mmul_assoc. unfold mmul at 1. rewrite (zsum_single n _ i Hi); [rewrite (I2 i i Hi Hi), delta_eq; ring|]. intros k Hk N. rewrite (I2 i k Hi Hk), delta_neq by auto. ring.
      - unfold mmul at 1. rewrite (zsum_single n _ j Hj); [rewrite (T j j Hj Hj), Nat.eqb_refl; ring|]. intros k Hk N. rewrite (T k j Hk Hj). rewrite (proj2 (Nat.eqb_neq k j)) by auto. ring. }
    assert (WV : forall i j, (i < n)%nat -> (j < n)%nat -> tab n (fun i j => tab n (mmul n U R) i j / D j j) i j = W0 i j).
    { intros i j Hi Hj. rewrite !tab_meq by auto. rewrite VW by auto. apply Z.div_mul. specialize (DP j Hj). lia. }
    split; [|split; [now rewrite map_length, seq_length|split]].
    + intros f Hf. unfold basis. cbv zeta. fold A. fold U. rewrite (proj2 (Z.eqb_neq _ _) U1), G by auto. cbn [bind]. unfold scaled_columns.
      assert (EX : existsb (fun j => D j j =? 0) (seq 0 n) = false).
      { destruct (existsb _ _) eqn:E; auto. apply existsb_exists in E as (j & Hj & Z0). apply in_seq in Hj. specialize (DP j ltac:(lia)). apply Z.eqb_eq in Z0. lia. }
      rewrite EX. assert (FB : forallb (fun i => forallb (fun j => tab n (mmul n U R) i j mod D j j =? 0) (seq 0 n)) (seq 0 n) = true).
      { apply forallb_forall. intros i Hi. apply in_seq in Hi. apply forallb_forall. intros j Hj. apply in_seq in Hj. apply Z.eqb_eq. rewrite tab_meq, VW by lia. apply Z.mod_mul. specialize (DP j ltac:(lia)). lia. }
      rewrite FB. reflexivity.
    + intros j Hj. rewrite nth_map_seq by auto. now apply DP.
    + exists L', R, Ri. refine (conj _ (conj _ (conj J1 _))).
      * intros i j Hi Hj. rewrite <- (I2 i j Hi Hj). unfold mmul. apply zsum_ext. intros k Hk. now rewrite WV.
      * intros i j Hi Hj. rewrite <- (I1 i j Hi Hj). unfold mmul. apply zsum_ext. intros k Hk. now rewrite WV.
      * intros i j Hi Hj. rewrite WV, nth_map_seq by auto. rewrite <- VW by auto. unfold mmul. apply zsum_ext. intros k Hk. now rewrite UV.
Qed.
Lemma mod_tau (n : nat) (d b : Z) (T k : nat -> Z) : (b mod d - zsum n (fun j => T j mod d * k j)) mod d = (b - zsum n (fun j => T j * k j)) mod d.
Proof.
  destruct (Z.eq_dec d 0) as [->|Nd].
  - rewrite !Zmod_0_r. rewrite (zsum_ext n _ (fun j => T j * k j)) by (intros; now rewrite Zmod_0_r). rewrite ?Zmod_0_r. reflexivity.
  - assert (E : zsum n (fun j => T j * k j) = zsum n (fun j => T j mod d * k j) + d * zsum n (fun j => T j / d * k j)).
    { rewrite <- zsum_scal, <- zsum_add. apply zsum_ext. intros j Hj. pose proof (Z.div_mod (T j) d Nd). nia. }
    rewrite E. pose proof (Z.div_mod b d Nd) as B. replace (b - (zsum n (fun j => T j mod d * k j) + d * zsum n (fun j => T j / d * k j))) with (b mod d - zsum n (fun j => T j mod d * k j) + (b / d - zsum n (fun j => T j / d * k j)) * d) by lia. now rewrite Z_mod_plus_full.
Qed.
(** What the theorems assume of a cone: dual facets, divisors dividing the determinant. *)
Definition cone_ok (n : nat) (c : scone) : Prop :=
  n_vectors n (s_rays c) /\ s_det c = det n (ent (s_rays c)) /\ s_det c <> 0 /\ dual_to n (s_rays c) (s_facets c) (s_divs c) /\ forall j, (j < n)%nat -> (nth j (s_divs c) 0 | s_det c).
Lemma list_map_nth (l : list Z) n : length l = n -> l = map (fun k => nth k l 0) (seq 0 n).
Proof. intros <-. apply nth_ext with (d := 0) (d' := 0); [now rewrite map_length, seq_length|]. intros k Hk. now rewrite nth_map_seq. Qed.
Lemma box_iff mx ks : in_box (map (fun x => x - 1) mx) ks <-> length ks = length mx /\ forall j, (j < length mx)%nat -> 0 <= nth j ks 0 < nth j mx 0.
Proof.
  unfold in_box. revert ks; induction mx as [|m mx IH]; intros ks; cbn [map].
  - split; [intros H; inversion H; split; auto; intros j Hj; cbn in Hj; lia|]. intros [L _]. destruct ks; [constructor|discriminate].
  - split.
    + intros H. inversion H; subst. apply IH in H4 as [L K]. split; [cbn [length]; now rewrite L|]. intros [|j] Hj; cbn [nth]; [lia|apply K; cbn [length] in Hj; lia].
    + intros [L K]. destruct ks as [|k ks]; [discriminate|]. constructor; [pose proof (K 0%nat ltac:(cbn [length]; lia)) as K0; cbn [nth] in K0; lia|]. apply IH. split; [cbn [length] in L; lia|]. intros j Hj. apply (K (S j)). cbn [length]. lia.
Qed.
Lemma box_size_prod mx : box_size (map (fun x => x - 1) mx) = zprod mx.
Proof. induction mx as [|m mx IH]; cbn [map box_size zprod fold_right]; auto. rewrite IH. unfold zprod. ring. Qed.
Lemma prod_bound mx : Forall (fun x => 0 < x) mx -> Forall (fun x => x <= zprod mx) mx /\ 0 < zprod mx.
Proof.
  induction 1 as [|m mx Hm F IH]; cbn [zprod fold_right]; [split; [constructor|lia]|]. fold (zprod mx). destruct IH as [IH P]. split; [|nia]. constructor; [nia|]. eapply Forall_impl; [|exact IH]. cbn beta. intros a Ha. nia.
Qed.
(** The generated points, over all combinations. *)
Section Gen.
Context (xg : Z -> Z -> Z * Z * Z) (XG : xgcd_contract xg) (n : nat) (Hn : (0 < n)%nat) (c : scone) (OK : cone_ok n c) (v : rvec).
Context (w : list Z) (s : Z) (v' : rvec) (SE : scale_to_integer v n = Ok (v', w, s)) (Hs : s <> 0) (Lw : length w = n) (SV : forall i, (i < n)%nat -> (inject_Z (nth i w 0%Z) == inject_Z s * coord v i)%Q).
Let A := ent (s_rays c). Let F := ent (s_facets c). Let dl := fun j => nth j (s_divs c) 0. Let dd := Z.abs (det n A). Let sc := fun j => dd / dl j.
Let bb := fun i => pr n F (fun k => nth k w 0) i / s.
Lemma gen_ok : exists fuel g, (forall f, (fuel <= f)%nat -> generator f xg n c v = Ok g) /\ length (p_max g) = n /\ (forall j, (j < n)%nat -> 0 < nth j (p_max g) 0) /\ p_common g = dd /\
  (forall i, (i < n)%nat -> nth i (p_scale g) 0 = sc i) /\
  exists W Wi R Ri, meq n n (mmul n W Wi) delta /\ meq n n (mmul n Wi W) delta /\ meq n n (mmul n R Ri) delta /\ 
  (forall i j, (i < n)%nat -> (j < n)%nat -> W i j * nth j (p_max g) 0 = zsum n (fun k => A k i * R k j)) /\
  forall ks i, (i < n)%nat -> multiplier n c g ks i = mult n F dl W bb (fun j => nth j ks 0) i.
Proof.
  destruct OK as (NV & ED & D0 & DU & DV). destruct (basis_ok xg n c XG Hn ED D0) as (fuel & mx & W & G & Lm & Pm & (Wi & R & Ri & I1 & I2 & I3 & FAC)). pose proof DU as (_ & Ld & _ & Pd & _).
  assert (EX : existsb (fun q => q =? 0) (s_divs c) = false).
  { destruct (existsb _ _) eqn:E; auto. apply existsb_exists in E as (q & Hq & Z0). apply Z.eqb_eq in Z0. subst q. apply In_nth with (d := 0) in Hq as (j & Hj & E). rewrite Ld in Hj. specialize (Pd j Hj). lia. }
  exists fuel. eexists. split.
  - intros f Hf. unfold generator. rewrite G by auto. cbn [bind]. rewrite SE. cbn [bind]. rewrite (proj2 (Z.eqb_neq s 0) Hs), EX. reflexivity.
  - cbn [p_max p_common p_scale p_tau p_beta p_betamod]. split; auto. split; auto. split; [unfold dd, A; now rewrite ED|]. split; [intros i Hi; rewrite nth_map_seq by auto; unfold sc, dd, dl, A; now rewrite ED|].
    exists W, Wi, R, Ri. refine (conj I1 (conj I2 (conj I3 (conj FAC _)))). intros ks i Hi. unfold multiplier, mult, red. cbn [p_tau p_beta p_betamod].
    assert (BE : nth i (map (fun i0 => zdot w (nth i0 (s_facets c) []) / s) (seq 0 n)) 0 = bb i) by (rewrite nth_map_seq by auto; unfold bb, zdot, pr; now rewrite Lw).
    rewrite BE. f_equal. rewrite nth_map_seq, BE by auto.
    rewrite (zsum_ext n _ (fun j => zsum n (fun k => W k j * ent (s_facets c) i k) mod nth i (s_divs c) 0 * nth j ks 0)) by (intros j Hj; now rewrite tab_meq).
    rewrite mod_tau. unfold dl. f_equal. f_equal. unfold pr, wk. rewrite (zsum_ext n (fun k => zsum n (fun j => W k j * nth j ks 0) * F i k) (fun k => zsum n (fun j => W k j * F i k * nth j ks 0))) by (intros k Hk; rewrite Z.mul_comm, <- zsum_scal; apply zsum_ext; intros; ring).
    rewrite zsum_swap. apply zsum_ext. intros j Hj. rewrite Z.mul_comm, <- zsum_scal. apply zsum_ext. intros k Hk. unfold F. ring.
Qed.
Lemma points_ok_core : exists fuel g, (forall f, (fuel <= f)%nat -> generator f xg n c v = Ok g) /\ (int_max < Z.abs (s_det c) /\ upper_bounds (p_max g) = Err Exited \/ exists kss, (forall f, (fuel <= f)%nat -> generator f xg n c v = Ok g /\ (exists u, upper_bounds (p_max g) = Ok u /\ drain f (ice_new u) = Ok kss)) /\
  let ps := map (generate_point n c g) kss in NoDup ps /\ (forall x, In x ps <-> in_parallelepiped n v (s_rays c) x) /\ Z.of_nat (length ps) = Z.abs (s_det c) /\
  forall h, length h = n -> mapM (point_scalar_product n c g h) kss = Ok (map (zdot h) ps)).
Proof.
  destruct gen_ok as (fuel & g & G & Lm & Pm & Ec & Es & (W & Wi & R & Ri & I1 & I2 & I3 & FAC & MU)). destruct OK as (NV & ED & D0 & DU & DV).
  assert (DN : det n A <> 0) by (unfold A; now rewrite <- ED). assert (DV' : forall j, (j < n)%nat -> (nth j (s_divs c) 0 | det n (ent (s_rays c)))) by (intros j Hj; rewrite <- ED; now apply DV).
  assert (DD : 0 < dd) by (unfold dd; lia).
  pose proof (w_pair n (s_rays c) (s_facets c) (s_divs c) DU) as PAIR. pose proof (w_dl n (s_rays c) (s_facets c) (s_divs c) DU) as DL. pose proof (w_sc n (s_rays c) (s_facets c) (s_divs c) DU DV') as SC.
  change (forall i j, (i < n)%nat -> (j < n)%nat -> zsum n (fun k => A i k * F j k) = if (i =? j)%nat then - dl j else 0) in PAIR. change (forall j, (j < n)%nat -> 0 < dl j) in DL. change (forall j, (j < n)%nat -> sc j * dl j = dd) in SC.
  set (mx := p_max g) in *. set (u := map (fun x => x - 1) mx).
  assert (FP : Forall (fun x => 0 < x) mx) by (apply Forall_forall; intros x Hx; apply In_nth with (d := 0) in Hx as (j & Hj & <-); apply Pm; now rewrite <- Lm).
  assert (PRD : zprod mx = dd).
  { unfold dd. rewrite <- (adapted_prod n A W (fun j => nth j mx 0)); [|exists Wi, R, Ri; auto|exact Pm]. f_equal. apply list_map_nth. exact Lm. }
  assert (DDE : dd = Z.abs (s_det c)) by (unfold dd, A; now rewrite ED).
  destruct (forallb (fun x => x <=? int_max) mx) eqn:FB.
  2: { exists fuel, g. split; auto. left. split; [|unfold upper_bounds; fold mx; now rewrite FB]. destruct (Z.lt_ge_cases int_max (Z.abs (s_det c))) as [|LE]; auto. exfalso.
       assert (X : forallb (fun x => x <=? int_max) mx = true); [|congruence]. apply forallb_forall. intros x Hx. apply Z.leb_le. destruct (prod_bound mx FP) as [B _]. rewrite Forall_forall in B. specialize (B x Hx). lia. }
  assert (UB : upper_bounds mx = Ok u) by (unfold upper_bounds; now rewrite FB).
  assert (Lu : length u = n) by (unfold u; now rewrite map_length).
  destruct (enum_ok u) with (extra := 1%nat) as (s1 & kss & EM & ND & IB & LK & _); [lia|apply Forall_forall; intros x Hx; unfold u in Hx; apply in_map_iff in Hx as (y & <- & Hy); rewrite Forall_forall in FP; specialize (FP y Hy); lia|].
  cbn [repeat] in EM. exists (Nat.max fuel (S (length kss))), g. split; [intros f Hf; apply G; lia|]. right. exists kss. split.
  { intros f Hf. split; [apply G; lia|]. exists u. split; auto. apply (drain_ok kss _ _ _ EM). lia. }
  cbv zeta. set (P := fun ks l => pt n A F dl W bb (fun j => nth j ks 0) l).
  assert (GP : forall ks, generate_point n c g ks = map (P ks) (seq 0 n)).
  { intros ks. unfold generate_point. apply map_ext_in. intros l Hl. apply in_seq in Hl. rewrite Ec.
    rewrite (zsum_ext n _ (fun i => mult n F dl W bb (fun j => nth j ks 0) i * sc i * A i l)) by (intros i Hi; rewrite nth_map_seq, MU, Es by auto; reflexivity).
    rewrite (sum_mult n A F dl sc dd DN PAIR DL SC W bb) by lia. rewrite Z.mul_comm, Z.div_mul by lia. reflexivity. }
  assert (BX : forall ks, In ks kss <-> length ks = n /\ forall j, (j < n)%nat -> 0 <= nth j ks 0 < nth j mx 0) by (intros ks; rewrite IB; unfold u; rewrite box_iff, Lm; reflexivity).
  assert (INJ : forall ks ks', In ks kss -> In ks' kss -> generate_point n c g ks = generate_point n c g ks' -> ks = ks').
  { intros ks ks' H H' E. apply BX in H as [L B]. apply BX in H' as [L' B']. rewrite !GP in E.
    apply nth_ext with (d := 0) (d' := 0); [congruence|]. rewrite L. apply (pt_inj n A F dl W Wi R Ri (fun j => nth j mx 0) I2 I3 FAC bb); auto.
    intros l Hl. change (P ks l = P ks' l). apply (f_equal (fun z => nth l z 0)) in E. now rewrite !nth_map_seq in E by auto. }
  split; [|split; [|split]].
  - clear -ND INJ. induction kss as [|k kss IH]; cbn [map]; constructor.
    + intros H. apply in_map_iff in H as (k' & E & H'). inversion ND; subst. assert (k' = k) by (apply INJ; auto; [now right|now left]). subst. auto.
    + inversion ND; subst. apply IH; auto. intros a b Ha Hb. apply INJ; now right.
  - intros x. assert (WIN : forall x, length x = n -> in_parallelepiped n v (s_rays c) x <-> forall i, (i < n)%nat -> bb i - dl i < pr n F (fun k => nth k x 0) i <= bb i).
    { intros x0 Lx. apply (in_piped_iff n (s_rays c) (s_facets c) (s_divs c) v w s DU DN Hs DV' SV x0 Lx). }
    rewrite in_map_iff. split.
    + intros (ks & <- & Hk). rewrite GP. assert (LG : length (map (P ks) (seq 0 n)) = n) by (now rewrite map_length, seq_length). apply (WIN _ LG). intros i Hi.
      rewrite (pr_ext n F _ (P ks)) by (intros l Hl; now rewrite nth_map_seq). apply (pt_window n A F dl PAIR DL W bb _ i Hi).
    + intros H. assert (Lx : length x = n) by apply H. pose proof (proj1 (WIN x Lx) H) as H1. clear H. rename H1 into H.
      destruct (pt_onto n A F dl sc dd DN DD PAIR DL SC W Wi R (fun j => nth j mx 0) I1 FAC Pm bb (fun k => nth k x 0) H) as (k & Bk & Ek).
      exists (map k (seq 0 n)). split.
      * rewrite GP. etransitivity; [|symmetry; apply (list_map_nth x n Lx)]. apply map_ext_in. intros l Hl. apply in_seq in Hl. rewrite <- (Ek l) by lia. unfold P, pt. assert (EW : forall l, wk n W (fun j => nth j (map k (seq 0 n)) 0) l = wk n W k l) by (intros l0; unfold wk; apply zsum_ext; intros j Hj; now rewrite nth_map_seq).
        rewrite EW. f_equal. apply zsum_ext. intros i Hi. unfold quo. rewrite (pr_ext n F (wk n W (fun j => nth j (map k (seq 0 n)) 0)) (wk n W k)) by (intros; apply EW). reflexivity.
      * apply BX. split; [now rewrite map_length, seq_length|]. intros j Hj. rewrite nth_map_seq by auto. now apply Bk.
  - rewrite map_length, LK. unfold u. rewrite box_size_prod, PRD, <- DDE. lia.
  - intros h Lh. clear -GP MU Ec Es DN DD PAIR DL SC Lh Hn D0. induction kss as [|ks kss IH]; [reflexivity|]. cbn [mapM map]. 
    assert (E : point_scalar_product n c g h ks = Ok (zdot h (generate_point n c g ks))).
    { unfold point_scalar_product. cbv zeta. rewrite Ec. rewrite (proj2 (Z.eqb_neq dd 0)) by lia.
      assert (S : zsum n (fun i => multiplier n c g ks i * nth i (map (fun i0 => nth i0 (p_scale g) 0 * zdot h (nth i0 (s_rays c) [])) (seq 0 n)) 0) = dd * zdot h (generate_point n c g ks)).
      { unfold zdot. rewrite Lh. rewrite <- zsum_scal. rewrite (zsum_ext n _ (fun i => zsum n (fun k => nth k h 0 * (mult n F dl W bb (fun j => nth j ks 0) i * sc i * A i k)))).
        - rewrite zsum_swap. apply zsum_ext. intros k Hk. rewrite zsum_scal. rewrite (sum_mult n A F dl sc dd DN PAIR DL SC W bb) by auto. rewrite GP, nth_map_seq by auto. unfold P. ring.
        - intros i Hi. rewrite nth_map_seq, MU, Es by auto. rewrite Z.mul_assoc, <- zsum_scal. apply zsum_ext. intros k Hk. unfold A, ent. ring. }
      rewrite S. rewrite (Z.mul_comm dd), Z.mod_mul, Z.div_mul by lia. reflexivity. }
    rewrite E. cbn [bind]. rewrite IH. reflexivity.
Qed.
End Gen.
Theorem points_exact xg n c v : xgcd_contract xg -> (0 < n)%nat -> cone_ok n c ->
  (exists P k, (P = nonzero \/ P = positive) /\ reachable P k v) -> dim v = n ->
  exists fuel,
  (int_max < Z.abs (s_det c) /\ forall f, (fuel <= f)%nat -> points f xg n c v = Err Exited) \/
  exists ps, (forall f, (fuel <= f)%nat -> points f xg n c v = Ok ps) /\ NoDup ps /\ (forall x, In x ps <-> in_parallelepiped n v (s_rays c) x) /\ Z.of_nat (length ps) = Z.abs (s_det c).
Proof.
  intros XG Hn OK (P & k & HP & RV) Dv. destruct (scale_exact P k v HP RV) as (v' & w & s & SE & Hs & Lw & SV & _). rewrite Dv in SE, Lw, SV.
  destruct (points_ok_core xg XG n Hn c OK v w s v' SE Hs Lw SV) as (fuel & g & G0 & [[B UB]|(kss & G & ND & IN & LN & SP)]); exists fuel.
  - left. split; auto. intros f Hf. unfold points. rewrite G0 by auto. cbn [bind]. now rewrite UB.
  - right. exists (rev (map (generate_point n c g) kss)). split; [|split; [|split]].
    + intros f Hf. destruct (G f Hf) as (E1 & u & E2 & E3). unfold points. rewrite E1. cbn [bind]. rewrite E2. cbn [bind]. rewrite E3. reflexivity.
    + now apply NoDup_rev.
    + intros x. rewrite <- in_rev. apply IN.
    + now rewrite rev_length.
Qed.
Theorem scalar_products_exact xg n c v h : xgcd_contract xg -> (0 < n)%nat -> cone_ok n c ->
  (exists P k, (P = nonzero \/ P = positive) /\ reachable P k v) -> dim v = n -> length h = n -> Z.abs (s_det c) <= int_max ->
  exists fuel ps, NoDup ps /\ (forall x, In x ps <-> in_parallelepiped n v (s_rays c) x) /\ forall f, (fuel <= f)%nat -> scalar_products f xg n c v h = Ok (map (fun x => sumz n (fun k => nth k h 0 * nth k x 0)) ps).
Proof.
  intros XG Hn OK (P & k & HP & RV) Dv Lh BD. destruct (scale_exact P k v HP RV) as (v' & w & s & SE & Hs & Lw & SV & _). rewrite Dv in SE, Lw, SV.
  destruct (points_ok_core xg XG n Hn c OK v w s v' SE Hs Lw SV) as (fuel & g & G0 & [[B UB]|(kss & G & ND & IN & LN & SP)]); [lia|]. exists fuel, (map (generate_point n c g) kss). split; auto. split; auto.
  intros f Hf. destruct (G f Hf) as (E1 & u & E2 & E3). unfold scalar_products. cbv zeta. rewrite (proj2 (Z.ltb_ge int_max (Z.abs (s_det c)))) by lia. rewrite E1. cbn [bind]. rewrite E2. cbn [bind]. rewrite E3. cbn [bind]. rewrite (SP h Lh). cbn [bind].
  rewrite (map_length (zdot h)), LN, Z.ltb_irrefl. replace (Z.to_nat (Z.abs (s_det c)) - length (map (generate_point n c g) kss))%nat with 0%nat by lia. cbn [repeat]. rewrite app_nil_r. f_equal. apply map_ext. intros x. unfold zdot. rewrite Lh. symmetry; apply sumz_zsum.
Qed.
Lemma det_and_facets_cone_ok n rays c : n_vectors n rays -> lin_indep n rays -> det_and_facets n rays = Ok c -> cone_ok n c /\ s_rays c = rays.
Proof.
  intros NV LI E. destruct (det_and_facets_ok n rays NV LI) as (c' & E' & ER & DU & ED & _ & DV). rewrite E in E'. inversion E'; subst c'. split; auto. unfold cone_ok. rewrite ER. refine (conj NV (conj ED (conj _ (conj DU DV)))). rewrite ED. now apply indep_det.
Qed.
