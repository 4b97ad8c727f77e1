(** Dilation of vertices; the dilated integrand. *)
From Coq Require Import QArith Qabs Qfield Qpower Permutation.
From Verif Require Import Common Rational RationalSpec RationalProofs RatVec RatVecSpec RatVecProofs Trie TrieSpec TrieProofs TrieProofs2 Integ IntegSpec IntegMath IntegProofs2 IntegProofs4 IntegProofs5 DecompProofs DecompProofs3 DecompProofs4 Series ZMat Det DetProofs PerturbSpec PerturbProofs6 Valuation ValuationSpec ValuationSpec2 ValuationProofs ValuationProofs2 ValuationProofs3.
Open Scope Z_scope.

(** ** Vertices *)
Definition vertex_ok (n : nat) (v : rvec) : Prop := inv positive v /\ dim v = n.
Lemma vlcm_loop_ok l : Forall positive l -> forall acc, 0 < acc -> exists k, vlcm_loop acc l = Ok k /\ 0 < k /\ (acc | k) /\ Forall (fun d => (d | k)) l.
Proof.
  induction 1 as [|d l Hd HF IH]; intros acc Ha; cbn [vlcm_loop]; [exists acc; repeat split; auto; apply Z.divide_refl|].
  destruct (vlcm_ok acc d Ha Hd) as (f & -> & F1 & F2 & F3 & _). cbn [bind]. destruct (IH f F1) as (k & K1 & K2 & K3 & K4). exists k. split; auto. split; auto. split; [eapply Z.divide_trans; eauto|]. constructor; auto. eapply Z.divide_trans; eauto.
Qed.
Lemma factor_rays_ok n cones : Forall (fun c => vertex_ok n (vc_vertex c)) cones -> forall acc, 0 < acc ->
  exists k, factor_rays n cones acc = Ok k /\ 0 < k /\ (acc | k) /\ Forall (fun c => Forall (fun d => (d | k)) (denominator (vc_vertex c))) cones.
Proof.
  induction 1 as [|c cones ((I1 & I2 & I3) & Hd) HF IH]; intros acc Ha; cbn [factor_rays]; [exists acc; split; [reflexivity|split; [auto|split; [apply Z.divide_refl|constructor]]]|].
  rewrite I1, Hd, Nat.ltb_irrefl. assert (E : firstn n (denominator (vc_vertex c)) = denominator (vc_vertex c)) by (apply firstn_all2; lia). rewrite E.
  destruct (vlcm_loop_ok _ I2 acc Ha) as (f & -> & F1 & F2 & F3). cbn [bind]. destruct (IH f F1) as (k & K1 & K2 & K3 & K4). exists k. split; auto. split; auto. split; [eapply Z.divide_trans; eauto|].
  constructor; auto. eapply Forall_impl; [|exact F3]. intros d Hd'. cbv beta in Hd'. apply (Z.divide_trans d f k); auto.
Qed.
Definition dilated_cone (n : nat) (k : Z) (c c' : vcone) : Prop :=
  vertex_ok n (vc_vertex c') /\ vc_rays c' = vc_rays c /\ vc_coef c' = vc_coef c /\
  forall i, (i < n)%nat -> den_at (vc_vertex c') i = 1 /\ (inject_Z (num_at (vc_vertex c') i) == inject_Z k * coord (vc_vertex c) i)%Q.
Lemma dilate_rays_ok n k cones : 0 < k -> Forall (fun c => vertex_ok n (vc_vertex c)) cones -> Forall (fun c => Forall (fun d => (d | k)) (denominator (vc_vertex c))) cones ->
  exists cs, dilate_rays (rat_make k 1) cones = Ok cs /\ Forall2 (dilated_cone n k) cones cs.
Proof.
  intros Hk. assert (RM : rat_make k 1 = mkRat k 1). { unfold rat_make, canonicalize. cbn [num den]. rewrite Z.gcd_1_r. cbn. now rewrite ?Z.div_1_r. }
  rewrite RM. induction 1 as [|c cones (I & Hd) HF IH]; intros HD; cbn [dilate_rays num den]; [exists []; split; auto|].
  destruct (scalar_multiplication_ok positive good_positive (vc_vertex c) k 1 I) as (v & -> & V1 & V2 & V3); [unfold positive; lia|]. cbn [bind].
  destruct (IH (Forall_inv_tail HD)) as (cs & -> & C). cbn [bind]. eexists. split; [reflexivity|]. constructor; auto. unfold dilated_cone. cbn [vc_vertex vc_rays vc_coef].
  split; [split; auto; congruence|]. split; auto. split; auto. intros i Hi. destruct (V3 i) as (G1 & g & G2 & G3 & G4); [lia|].
  assert (DP : 0 < den_at v i). { apply (Forall_den positive v i); [unfold positive; lia|apply V1]. }
  assert (DI : (den_at (vc_vertex c) i | k)). { pose proof (Forall_inv HD) as F. rewrite Forall_forall in F. apply F. unfold den_at. apply nth_In. destruct I as [-> _]. lia. }
  destruct DI as [t Ht]. assert (E : num_at v i = num_at (vc_vertex c) i * t * den_at v i).
  { apply (Z.mul_reg_r _ _ g); [lia|]. rewrite <- G3, Ht. replace (den_at (vc_vertex c) i) with (den_at v i * g) by lia. ring. }
  assert (D1 : den_at v i = 1). { assert (X : (den_at v i | Z.gcd (num_at v i) (den_at v i))) by (apply Z.gcd_greatest; [rewrite E; apply Z.divide_factor_r|apply Z.divide_refl]). rewrite G1 in X. apply Z.divide_1_r_nonneg in X; lia. }
  split; auto. unfold coord. assert (N : ~ (inject_Z (den_at (vc_vertex c) i) == 0)%Q). { apply injz_nz. destruct I as (_ & I2 & _). pose proof (Forall_den positive (vc_vertex c) i ltac:(unfold positive; lia) I2) as P. unfold positive in P. lia. }
  assert (Z2 : den_at (vc_vertex c) i * num_at v i = num_at (vc_vertex c) i * k) by nia. apply (f_equal inject_Z) in Z2. rewrite !inject_Z_mult in Z2.
  apply (Qmult_inj_l _ _ (inject_Z (den_at (vc_vertex c) i))); auto. rewrite Z2. field. exact N.
Qed.
Lemma nth_point n v j : vertex_ok n v -> (j < n)%nat -> nth j (point v) 0%Q = coord v j.
Proof.
  intros [_ H] Hj. unfold point. rewrite H. rewrite (nth_indep (map (coord v) (seq 0 n)) 0%Q (coord v 0%nat)) by (rewrite map_length, seq_length; lia). rewrite (map_nth (coord v)). rewrite seq_nth by lia. reflexivity.
Qed.
Lemma build_rays_ok n k cones cs : n <> O -> Forall (fun c => vertex_ok n (vc_vertex c)) cones -> Forall2 (dilated_cone n k) cones cs ->
  exists rs, build_rays n cs = Ok rs /\ leveled n k 1 (map (fun c => point (vc_vertex c)) cones) rs.
Proof.
  intros Hn HV. induction 1 as [|c c' cones cs (V & _ & _ & D) HF IH]; cbn [build_rays map]; [exists []; split; [reflexivity|constructor]|].
  pose proof (Forall_inv HV) as V0. cbv beta in V0. destruct V as (I & Hd). pose proof (scale_ok positive good_positive (vc_vertex c') I) as (v' & w & s & E & I' & N' & D' & Ew & Es & C). rewrite Hd in E. rewrite E. cbn [bind].
  destruct (IH (Forall_inv_tail HV)) as (rs & -> & L). cbn [bind]. eexists. split; [reflexivity|]. constructor; auto.
  destruct I' as (_ & I2' & I3'). destruct (I3' C) as ((C1 & C2 & C3 & C4 & C5) & C6).
  assert (dv : dim v' = n) by (unfold dim in *; now rewrite N'). assert (DE : forall i, den_at v' i = den_at (vc_vertex c') i) by (intros i; unfold den_at; now rewrite D'). assert (NE : forall i, num_at v' i = num_at (vc_vertex c') i) by (intros i; unfold num_at; now rewrite N').
  assert (S1 : s = 1). { assert (P : 0 < ifactor v') by (apply C6; [exact I2'|lia]). assert (X : (ifactor v' | 1)) by (apply C5; [lia|]; intros i Hi; rewrite DE; destruct (D i) as [-> _]; [lia|apply Z.divide_refl]). apply Z.divide_1_r_nonneg in X; lia. }
  rewrite <- Ew, dv in C1. rewrite <- Ew, <- Es in C3. rewrite S1 in *. rewrite dv in C3.
  split; [unfold point; rewrite map_length, seq_length; apply V0|]. split; [rewrite app_length; cbn; lia|]. split; [rewrite app_nth2 by lia; rewrite C1, Nat.sub_diag; reflexivity|].
  intros j Hj. rewrite app_nth1 by lia. destruct (D j Hj) as [D1 D2]. rewrite (nth_point n) by auto. rewrite <- D2. specialize (C3 j Hj). rewrite DE, D1, NE in C3. replace (nth j w 0) with (num_at (vc_vertex c') j) by lia. reflexivity.
Qed.

(** ** Leveled rays *)
Lemma qdet_scale n c : forall A, (qdet n (fun i j => c * A i j) == c ^ Z.of_nat n * qdet n A)%Q.
Proof.
  induction n as [|n IH]; intros A; [cbn; ring|]. cbn [qdet]. rewrite !sum_over_qsum, <- qsum_scale. apply qsum_ext. intros j _. rewrite IH, Qpow_S. ring.
Qed.
Lemma nth_qscale k p j : (nth j (qscale k p) 0 == inject_Z k * nth j p 0)%Q.
Proof. unfold qscale. destruct (Nat.lt_ge_cases j (length p)). - rewrite (nth_indep _ 0%Q (inject_Z k * 0)%Q) by (now rewrite map_length). rewrite (map_nth (fun x => (inject_Z k * x)%Q)). reflexivity. - rewrite !nth_overflow by (rewrite ?map_length; lia). ring. Qed.
Lemma volume_qscale n k ps : 0 < k -> length ps = S n -> (simplex_volume n (map (qscale k) ps) == inject_Z k ^ Z.of_nat n * simplex_volume n ps)%Q.
Proof.
  intros Hk HL. unfold simplex_volume, parallelepiped. rewrite (Qabs_wd _ (inject_Z k ^ Z.of_nat n * qdet n (fun i j => nth j (nth (S i) ps []) 0 - nth j (nth 0 ps []) 0))%Q).
  - rewrite Qabs_Qmult, (Qabs_pos (inject_Z k ^ _)). { unfold Qdiv. ring. } rewrite <- qpow_inj. change 0%Q with (inject_Z 0). rewrite <- Zle_Qle. apply Z.pow_nonneg. lia.
  - rewrite <- qdet_scale. apply qdet_ext. intros i j Hi Hj. assert (E : forall a, (nth j (nth a (map (qscale k) ps) []) 0 == inject_Z k * nth j (nth a ps []) 0)%Q).
    { intros a. change (@nil Q) with (qscale k []) at 1. rewrite (map_nth (qscale k)). apply nth_qscale. }
    rewrite !E. ring.
Qed.
Lemma leveled_dilated n k e ps rays : leveled n k e ps rays -> dilated n k ps (map (firstn n) rays).
Proof.
  induction 1 as [|p r ps rays (H1 & H2 & H3 & H4) HF IH]; cbn [map]; constructor; auto. split; auto. split; [rewrite firstn_length; lia|]. intros j Hj. rewrite <- (H4 j Hj).
  rewrite <- (firstn_skipn n r) at 2. rewrite app_nth1 by (rewrite firstn_length; lia). reflexivity.
Qed.
Lemma leveled_cone n k ps rays : 0 < k -> leveled n k k ps rays -> cone_over n ps rays.
Proof. intros Hk. induction 1 as [|p r ps rays (H1 & H2 & H3 & H4) HF IH]; constructor; auto. rewrite H3. repeat split; auto. Qed.
Lemma leveled_cone1 n k ps rays : leveled n k 1 ps rays -> cone_over n (map (qscale k) ps) rays.
Proof.
  induction 1 as [|p r ps rays (H1 & H2 & H3 & H4) HF IH]; cbn [map]; constructor; auto. rewrite H3. split; [unfold qscale; now rewrite map_length|]. split; auto. split; [lia|]. intros j Hj. rewrite H4, nth_qscale by auto. change (inject_Z 1) with 1%Q. ring.
Qed.
