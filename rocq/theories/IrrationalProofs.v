(** Irrationalising a simplicial cone: the assertions hold, the integer points stay. *)
From Coq Require Import QArith Qfield Qround Qabs Lqa.
From Verif Require Import Common ZMat Hermite HermiteProofs Det DetProofs RatVec RatVecSpec RatVecProofs Piped PipedSpec PipedProofs PipedProofs2 PipedProofs3 PipedProofs4 ConeSpec ConeProofs Irrational.
Open Scope Z_scope.

(** Vectors whose integer scaling is exact. *)
Definition scales (n : nat) (v : rvec) : Prop :=
  exists v' w s, scale_to_integer v n = Ok (v', w, s) /\ s <> 0 /\ length w = n /\ forall i, (i < n)%nat -> (inject_Z (nth i w 0%Z) == inject_Z s * coord v i)%Q.
Lemma reachable_scales P k v n : discipline P -> reachable P k v -> dim v = n -> scales n v.
Proof. intros D R <-. destruct (scale_exact P k v D R) as (v' & w & s & E & N & L & C & _). exists v', w, s. auto. Qed.
Fixpoint set_ops (ns : list Z) (i : nat) (d : Z) : list rop := match ns with [] => [] | x :: ns' => RSetEntry i x d false :: set_ops ns' (S i) d end.
Lemma set_loop_rrun ns d : forall v i, set_loop v ns i d = rrun v (set_ops ns i d).
Proof. induction ns as [|x ns IH]; intros v i; cbn [set_loop set_ops rrun]; auto. cbn [rstep]. destruct (set_entry v i x d false); cbn [bind]; auto. Qed.
Lemma rrun_app v p q : rrun v (p ++ q) = bind (rrun v p) (fun v' => rrun v' q).
Proof. revert v; induction p as [|o p IH]; intros v; cbn [app rrun bind]; auto. destruct (rstep v o); cbn [bind]; auto. Qed.
Lemma reachable_run P c v p v' : discipline P -> reachable P c v -> Forall (op_ok P (dim v)) p -> rrun v p = Ok v' -> reachable P c v'.
Proof.
  intros D R H E. destruct (reachable_inv P c v D R) as [_ DV]. destruct R as (Hc & v0 & q & E0 & Hq & Eq). split; auto. exists v0, (q ++ p). split; auto. split; [apply Forall_app; split; auto; now rewrite <- DV|]. rewrite rrun_app, Eq. cbn [bind]. exact E.
Qed.
Lemma set_loop_ok c d ns : 0 < d -> forall v i, reachable positive c v -> (i + length ns <= dim v)%nat ->
  exists v', set_loop v ns i d = Ok v' /\ reachable positive c v' /\ dim v' = dim v /\
  (forall j, (i <= j < i + length ns)%nat -> num_at v' j = nth (j - i) ns 0 /\ den_at v' j = d) /\
  (forall j, ~ (i <= j < i + length ns)%nat -> num_at v' j = num_at v j /\ den_at v' j = den_at v j).
Proof.
  intros Hd. assert (DP : discipline positive) by now right. induction ns as [|x ns IH]; intros v i R L; cbn [set_loop].
  - exists v. split; auto. split; auto. split; auto. split; [cbn; intros; lia|]. intros; split; reflexivity.
  - cbn [length] in L. destruct (reachable_inv positive c v DP R) as [I D]. destruct (set_entry_ok positive good_positive v i x d false I ltac:(lia) Hd) as (v1 & E1 & I1 & D1 & N1 & M1). rewrite E1. cbn [bind].
    assert (OP : op_ok positive (dim v) (RSetEntry i x d false)) by (split; [lia|exact Hd]).
    assert (R1 : reachable positive c v1). { apply (reachable_run positive c v [RSetEntry i x d false] v1 DP R); [constructor; [exact OP|constructor]|]. cbn [rrun rstep]. rewrite E1. reflexivity. }
    destruct (effect_set_entry positive c v i x d false v1 DP R OP E1) as (A1 & A2 & A3).
    destruct (IH v1 (S i) R1 ltac:(lia)) as (v' & E & R' & D' & B1 & B2). exists v'. split; auto. split; auto. split; [congruence|]. cbn [length]. split; intros j Hj.
    + destruct (Nat.eq_dec j i) as [->|N].
      * rewrite Nat.sub_diag. cbn [nth]. destruct (B2 i ltac:(lia)) as [-> ->]. auto.
      * destruct (B1 j ltac:(lia)) as [-> ->]. replace (j - i)%nat with (S (j - S i)) by lia. cbn [nth]. auto.
    + destruct (B2 j ltac:(lia)) as [-> ->]. apply A3. lia.
Qed.
Lemma zero_reachable n : reachable positive (CZero n) (rv_zero n).
Proof. split; [cbn; unfold positive; lia|]. exists (rv_zero n), []. split; [reflexivity|]. split; [constructor|reflexivity]. Qed.
Lemma zero_dim n : dim (rv_zero n) = n.
Proof. unfold dim, rv_zero. cbn. apply repeat_length. Qed.
(** facet matrices *)
Lemma facet_rows_ok dt : forall fs qs, length qs = length fs -> (forall j, (j < length fs)%nat -> 0 < nth j qs 0 /\ (nth j qs 0 | dt)) ->
  exists rs, facet_rows dt fs qs = Ok rs /\ length rs = length fs /\ forall j, (j < length fs)%nat -> nth j rs [] = map (fun x => x * (dt / nth j qs 0)) (nth j fs []).
Proof.
  induction fs as [|f fs IH]; intros [|q qs] L H; cbn [length] in L; try discriminate; cbn [facet_rows].
  - exists []. split; auto. split; auto. cbn. intros; lia.
  - destruct (H 0%nat ltac:(cbn; lia)) as [Q0 Q1]. cbn [nth] in Q0, Q1. rewrite (proj2 (Z.eqb_neq q 0)) by lia. rewrite (proj2 (Z.mod_divide dt q ltac:(lia)) Q1). cbn [Z.eqb].
    destruct (IH qs ltac:(lia)) as (rs & E & Lr & Nr); [intros j Hj; apply (H (S j)); cbn; lia|]. rewrite E. cbn [bind]. eexists. split; [reflexivity|]. split; [cbn [length]; lia|]. intros [|j] Hj; cbn [nth]; [reflexivity|apply Nr; cbn [length] in Hj; lia].
Qed.
Lemma norm1_zsum f n : length f = n -> norm1 f = zsum n (fun k => Z.abs (nth k f 0)).
Proof. intros <-. induction f as [|x f IH]; [reflexivity|]. cbn [norm1 fold_right length]. fold (norm1 f). rewrite IH, zsum_head. reflexivity. Qed.
Lemma max_norm1_ge fs f : In f fs -> norm1 f <= max_norm1 fs.
Proof.
  unfold max_norm1. assert (G : forall m, m <= fold_left (fun m f => if m <? norm1 f then norm1 f else m) fs m /\ forall f, In f fs -> norm1 f <= fold_left (fun m f => if m <? norm1 f then norm1 f else m) fs m); [|apply G].
  induction fs as [|g fs IH]; intros m; cbn [fold_left]; [split; [lia|contradiction]|]. destruct (IH (if m <? norm1 g then norm1 g else m)) as [A B]. split; [destruct (Z.ltb_spec m (norm1 g)); lia|]. intros h [<-|Hh]; auto. destruct (Z.ltb_spec m (norm1 g)); lia.
Qed.
Lemma norm1_nonneg f : 0 <= norm1 f.
Proof. induction f as [|x f IH]; cbn [norm1 fold_right]; [lia|]. fold (norm1 f). lia. Qed.
Lemma num_bits_spec m : 0 <= m -> 0 <= num_bits m /\ m < 2 ^ num_bits m.
Proof.
  intros H. unfold num_bits. destruct (Z.eqb_spec m 0) as [->|N]; [split; [lia|reflexivity]|]. rewrite Z.abs_eq by lia. pose proof (Z.log2_nonneg m). split; [lia|]. pose proof (Z.log2_spec m ltac:(lia)). rewrite <- Z.add_1_r in *. lia.
Qed.
Open Scope Q_scope.
Lemma dot_bound n (d : nat -> Q) (f : nat -> Z) e : 0 <= e -> (forall k, (k < n)%nat -> - e <= d k <= e) -> - (e * inject_Z (zsum n (fun k => Z.abs (f k)))) <= sumq n (fun k => d k * inject_Z (f k)) <= e * inject_Z (zsum n (fun k => Z.abs (f k))).
Proof.
  intros He. induction n as [|n IH]; intros H; cbn [sumq zsum]; [change (inject_Z 0) with 0; lra|]. specialize (IH (fun k Hk => H k ltac:(lia))). specialize (H n ltac:(lia)). rewrite inject_Z_plus.
  assert (B : - (e * inject_Z (Z.abs (f n))) <= d n * inject_Z (f n) <= e * inject_Z (Z.abs (f n))); [|lra].
  destruct (Z_le_gt_dec 0 (f n)) as [P|P].
  - rewrite Z.abs_eq by auto. assert (0 <= inject_Z (f n)) by (change 0 with (inject_Z 0); now rewrite <- Zle_Qle). nra.
  - rewrite Z.abs_neq by lia. rewrite inject_Z_opp. assert (inject_Z (f n) <= 0) by (change 0 with (inject_Z 0); rewrite <- Zle_Qle; lia). nra.
Qed.
Section Irr.
Context (n : nat) (Hn : (0 < n)%nat) (c : scone) (OK : cone_ok n c).
Let A := ent (s_rays c). Let F := ent (s_facets c). Let dl := fun j => nth j (s_divs c) 0%Z. Let dd := Z.abs (det n A). Let sc := fun j => (dd / dl j)%Z.
Lemma i_sc j : (j < n)%nat -> (sc j * dl j)%Z = dd.
Proof. exact (c_sc n c OK j). Qed.
Lemma i_scpos j : (j < n)%nat -> (0 < sc j)%Z.
Proof. intros Hj. pose proof (i_sc j Hj) as E. pose proof (c_dl n c OK j Hj) as P. pose proof (c_dd n c OK) as D. fold (dl j) in P. fold A in D. fold dd in D. nia. Qed.
Lemma i_len j : (j < n)%nat -> length (nth j (s_facets c) []) = n.
Proof. destruct OK as (NV & ED & D0 & DU & DV). destruct DU as ((L & Fa) & _). intros Hj. rewrite Forall_forall in Fa. apply Fa, nth_In. lia. Qed.
Lemma i_lf : length (s_facets c) = n.
Proof. destruct OK as (NV & ED & D0 & DU & DV). exact (proj1 (proj1 DU)). Qed.
Lemma i_ld : length (s_divs c) = n.
Proof. destruct OK as (NV & ED & D0 & DU & DV). exact (proj1 (proj2 DU)). Qed.
Lemma i_det : Z.abs (s_det c) = dd.
Proof. destruct OK as (NV & ED & D0 & DU & DV). unfold dd, A. now rewrite ED. Qed.
Lemma dot_phi v w s i : length w = n -> (forall i, (i < n)%nat -> inject_Z (nth i w 0%Z) == inject_Z s * coord v i) -> (i < n)%nat ->
  inject_Z (zdot w (nth i (s_facets c) [])) == inject_Z s * phi n c (coord v) i.
Proof.
  intros Lw SV Hi. unfold zdot. rewrite Lw. rewrite <- sumq_inj. unfold phi. rewrite <- sumq_scal. apply sumq_ext. intros k Hk. rewrite inject_Z_mult, (SV k Hk). unfold ent. ring.
Qed.
Lemma equivalent_ok v1 v2 : scales n v1 -> scales n v2 -> (forall i, (i < n)%nat -> Qfloor (phi n c (coord v1) i) = Qfloor (phi n c (coord v2) i)) -> integer_equivalent n c v1 v2 = Ok tt.
Proof.
  intros (v1' & w1 & s1 & E1 & N1 & L1 & C1) (v2' & w2 & s2 & E2 & N2 & L2 & C2) H. unfold integer_equivalent. rewrite E1. cbn [bind]. rewrite E2. cbn [bind]. rewrite (proj2 (Z.eqb_neq s1 0) N1), (proj2 (Z.eqb_neq s2 0) N2). cbn [orb].
  assert (FB : forallb (fun f => (zdot w1 f / s1 =? zdot w2 f / s2)%Z) (s_facets c) = true); [|now rewrite FB].
  apply forallb_forall. intros f Hf. apply In_nth with (d := []) in Hf as (i & Hi & <-). rewrite i_lf in Hi. apply Z.eqb_eq. rewrite (floor_div _ s1 (phi n c (coord v1) i) N1 (dot_phi v1 w1 s1 i L1 C1 Hi)), (floor_div _ s2 (phi n c (coord v2) i) N2 (dot_phi v2 w2 s2 i L2 C2 Hi)). now apply H.
Qed.
Lemma irrational_iff v : scales n v -> exists b, is_irrational n c v = Ok b /\ (b = true <-> forall i z, (i < n)%nat -> ~ phi n c (coord v) i == inject_Z z).
Proof.
  intros (v' & w & s & E & N & L & C). unfold is_irrational. rewrite E. cbn [bind]. rewrite (proj2 (Z.eqb_neq s 0) N). eexists. split; [reflexivity|]. rewrite forallb_forall. pose proof (inj_nz s N) as Ns. split; intros H.
  - intros i z Hi EQ. specialize (H (nth i (s_facets c) []) ltac:(apply nth_In; rewrite i_lf; auto)). pose proof (dot_phi v w s i L C Hi) as D. rewrite EQ, <- inject_Z_mult in D. apply (proj1 (inject_Z_injective _ _)) in D. rewrite D, Z.mul_comm, Z.mod_mul in H by auto. discriminate.
  - intros f Hf. apply In_nth with (d := []) in Hf as (i & Hi & <-). rewrite i_lf in Hi. destruct (Z.eqb_spec (zdot w (nth i (s_facets c) []) mod s) 0) as [M|M]; [|reflexivity]. apply Z.mod_divide in M as [q Hq]; auto. destruct (H i q Hi). pose proof (dot_phi v w s i L C Hi) as D. rewrite Hq, inject_Z_mult in D. apply (Qmult_inj_l _ _ (inject_Z s) Ns). rewrite <- D. ring.
Qed.
(** Points within distance < 1/2 of the centre, measured by the scaled facets. *)
Definition near (v u : rvec) : Prop := forall i, (i < n)%nat -> let l := Qfloor (inject_Z (sc i) * phi n c (coord v) i) in inject_Z l < inject_Z (sc i) * phi n c (coord u) i /\ inject_Z (sc i) * phi n c (coord u) i < inject_Z (l + 1).
Lemma near_floor v u i : near v u -> (i < n)%nat -> Qfloor (phi n c (coord v) i) = Qfloor (phi n c (coord u) i).
Proof.
  intros H Hi. destruct (H i Hi) as [A1 A2]. pose proof (i_scpos i Hi) as P. rewrite (floor_scaled _ _ _ P (Qlt_le_weak _ _ A1) A2). apply floor_scaled; auto; [apply Qfloor_le|apply Qlt_floor].
Qed.
Lemma near_irrational v u : near v u -> forall i z, (i < n)%nat -> ~ phi n c (coord u) i == inject_Z z.
Proof.
  intros H i z Hi E. destruct (H i Hi) as [A1 A2]. rewrite E, <- inject_Z_mult, <- Zlt_Qlt in A1, A2. lia.
Qed.
Lemma matrix2_ok : exists dual, facet_matrix2 c = Ok dual /\ length dual = n /\ (forall i, (i < n)%nat -> length (nth i dual []) = n /\ forall k, (k < n)%nat -> nth k (nth i dual []) 0%Z = (sc i * F i k)%Z) .
Proof.
  destruct OK as (NV & ED & D0 & DU & DV). unfold facet_matrix2. destruct (facet_rows_ok (Z.abs (s_det c)) (s_facets c) (s_divs c)) as (rs & E & L & N).
  - rewrite i_ld, i_lf. reflexivity.
  - rewrite i_lf. intros j Hj. split; [now apply (c_dl n c OK)|]. apply Z.divide_abs_r. now apply DV.
  - rewrite i_lf in *. exists rs. split; auto. split; auto. intros i Hi. rewrite N by auto. split; [rewrite map_length; now apply i_len|]. intros k Hk. rewrite nth_map0 with (b := 0%Z) by (rewrite i_len; auto). rewrite i_det. fold (dl i). fold (sc i). unfold F, ent. ring.
Qed.
Lemma center_ok v : scales n v -> exists cv N, stability_cube_simplicial n c v = Ok (cv, 1, 2 * N)%Z /\ (0 <= N)%Z /\ reachable positive (CZero n) cv /\ dim cv = n /\
  (forall i, (i < n)%nat -> inject_Z (sc i) * phi n c (coord cv) i == inject_Z (Qfloor (inject_Z (sc i) * phi n c (coord v) i)) + (1 # 2)) /\
  (forall i, (i < n)%nat -> (sc i * zsum n (fun k => Z.abs (F i k)) <= N)%Z).
Proof.
  intros SVv. destruct matrix2_ok as (dual & ED & Ld & Nd). pose proof (c_dd n c OK) as Hd. fold A in Hd. fold dd in Hd.
  pose proof SVv as (v' & w & s & E & N & L & C).
  set (l := map (fun f => (zdot f w / s)%Z) dual). set (l2 := map (fun x => (x * 2 + 1)%Z) l). set (ce := map (fun k => (- zsum n (fun i => ent (s_rays c) i k * nth i l2 0))%Z) (seq 0 n)).
  assert (Ll : length l = n) by (unfold l; now rewrite map_length).
  assert (LV : forall i, (i < n)%nat -> nth i l 0%Z = Qfloor (inject_Z (sc i) * phi n c (coord v) i)).
  { intros i Hi. unfold l. rewrite (nth_indep _ 0%Z (zdot [] w / s)%Z) by (rewrite map_length; lia). rewrite (map_nth (fun f => (zdot f w / s)%Z)). apply floor_div; auto. destruct (Nd i Hi) as [Lr Nr]. unfold zdot. rewrite Lr, <- sumq_inj. unfold phi. rewrite <- sumq_scal, <- sumq_scal. apply sumq_ext. intros k Hk. rewrite Nr by auto. rewrite !inject_Z_mult, (C k Hk). unfold F. ring. }
  assert (L2 : forall i, (i < n)%nat -> nth i l2 0%Z = (nth i l 0 * 2 + 1)%Z) by (intros i Hi; unfold l2; now rewrite nth_map0 with (b := 0%Z) by lia).
  assert (Lc : length ce = n) by (unfold ce; now rewrite map_length, seq_length).
  destruct (set_loop_ok (CZero n) (2 * dd)%Z ce ltac:(lia) (rv_zero n) 0%nat (zero_reachable n) ltac:(rewrite zero_dim; lia)) as (cv & Ecv & Rcv & Dcv & B1 & _). rewrite zero_dim in Dcv.
  assert (CC : forall k, (k < n)%nat -> coord cv k == inject_Z (nth k ce 0%Z) / inject_Z (2 * dd)).
  { intros k Hk. destruct (B1 k ltac:(lia)) as [E1 E2]. unfold coord. rewrite E1, E2, Nat.sub_0_r. reflexivity. }
  assert (D2 : ~ inject_Z (2 * dd) == 0) by (apply inj_nz; lia).
  assert (PH : forall i, (i < n)%nat -> inject_Z (sc i) * phi n c (coord cv) i == inject_Z (Qfloor (inject_Z (sc i) * phi n c (coord v) i)) + (1 # 2)).
  { intros i Hi. assert (CB : combination n (s_rays c) (fun i => - inject_Z (nth i l2 0%Z) / inject_Z (2 * dd)) (coord cv)).
    { intros k Hk. rewrite (CC k Hk). unfold ce. rewrite nth_map_seq by auto. rewrite inject_Z_opp, <- sumq_inj.
      rewrite (sumq_ext n (fun k0 => - inject_Z (nth k0 l2 0%Z) / inject_Z (2 * dd) * inject_Z (vat (s_rays c) k0 k)) (fun k0 => - (/ inject_Z (2 * dd)) * inject_Z (ent (s_rays c) k0 k * nth k0 l2 0%Z))).
      - rewrite sumq_scal. field. auto.
      - intros i0 Hi0. rewrite (inject_Z_mult (ent (s_rays c) i0 k)). unfold vat. fold (ent (s_rays c) i0 k). field. auto. }
    pose proof (comb_coord n c OK _ _ i CB Hi) as CE. cbv beta in CE. rewrite L2, LV in CE by auto. set (fl := Qfloor (inject_Z (sc i) * phi n c (coord v) i)) in *. 
    assert (E2 : phi n c (coord cv) i == inject_Z (dl i) * (inject_Z fl * 2 + 1) / inject_Z (2 * dd)).
    { setoid_replace (phi n c (coord cv) i) with (- - phi n c (coord cv) i) by ring. rewrite <- CE. fold (dl i). rewrite inject_Z_plus, (inject_Z_mult fl). change (inject_Z 2) with 2. change (inject_Z 1) with 1. field. auto. }
    rewrite E2. transitivity (inject_Z (sc i * dl i) * (inject_Z fl * 2 + 1) / inject_Z (2 * dd)); [rewrite (inject_Z_mult (sc i)); field; auto|].
    rewrite i_sc by auto. rewrite (inject_Z_mult 2 dd). change (inject_Z 2) with 2. field. apply inj_nz. lia. }
  exists cv, (max_norm1 dual). split; [|split; [|split; [exact Rcv|split; [exact Dcv|split; [exact PH|]]]]].
  - unfold stability_cube_simplicial. rewrite E. cbn [bind]. rewrite ED. cbn [bind]. rewrite (proj2 (Z.eqb_neq s 0) N). cbv zeta. fold l. fold l2. fold ce. rewrite i_det, Ecv. cbn [bind].
    rewrite equivalent_ok; [reflexivity|exact SVv|exact (reachable_scales positive _ cv n (or_intror eq_refl) Rcv Dcv)|].
    intros i Hi. apply near_floor; auto. intros j Hj. cbv zeta. rewrite (PH j Hj). rewrite inject_Z_plus. change (inject_Z 1) with 1. lra.
  - assert (In (nth 0 dual []) dual) by (apply nth_In; lia). pose proof (max_norm1_ge dual _ H). pose proof (norm1_nonneg (nth 0 dual [])). lia.
  - intros i Hi. destruct (Nd i Hi) as [Lr Nr]. assert (In (nth i dual []) dual) by (apply nth_In; lia). pose proof (max_norm1_ge dual _ H) as G. rewrite (norm1_zsum _ n Lr) in G. rewrite <- zsum_scal. erewrite zsum_ext; [exact G|]. intros k Hk. cbv beta. rewrite Nr by auto. rewrite Z.abs_mul, (Z.abs_eq (sc i)) by (pose proof (i_scpos i Hi); lia). reflexivity.
Qed.
End Irr.
