(** From identities of rational generating functions to numbers of points, by t -> 1. *)
From Coq Require Import QArith Qfield Qpower Lqa Qround Setoid Morphisms.
From Verif Require Import Common IntegSpec IntegMath IntegProofs DecompProofs DecompProofs4 InterpProofs2 Series ZMat HermiteProofs Piped Exponential ExpSpec ExpProofs ExpProofs2 ExpProofs3 Residue ResidueSpec ResidueProofs ResidueProofs2 ResidueProofs3.
Open Scope Q_scope.

Lemma omp_split r : one_minus_power r ~= shift (scal (- (1)) (gser r)).
Proof. intros [|n]; unfold one_minus_power, scal, gser; cbn [sone shift]; [cbn [bser]; reflexivity|]. ring. Qed.
Definition sgn (n : nat) : Z := ((-1) ^ Z.of_nat n)%Z.
Lemma sgn_S n : sgn (S n) = (- sgn n)%Z.
Proof. unfold sgn. rewrite Nat2Z.inj_succ, Z.pow_succ_r by lia. lia. Qed.
Lemma sgn_sq n : (sgn n * sgn n = 1)%Z.
Proof. induction n as [|n IH]; [reflexivity|]. rewrite sgn_S. lia. Qed.
Lemma sgn_sq' n : inject_Z (sgn n) * inject_Z (sgn n) == 1.
Proof. rewrite <- inject_Z_mult, sgn_sq. reflexivity. Qed.
Lemma product_omp rs : product (map one_minus_power rs) ~= Nat.iter (length rs) shift (scal (inject_Z (sgn (length rs))) (gprod rs)).
Proof.
  induction rs as [|r rs IH]; cbn [map product fold_right length]; [intros n; unfold scal; cbn [Nat.iter nat_rect]; change (inject_Z (sgn 0)) with 1; ring|].
  fold (product (map one_minus_power rs)) (gprod rs). intros n.
  rewrite (conv_ext _ _ _ _ (omp_split r) IH n), conv_shift_l. cbn [Nat.iter nat_rect]. apply shift_ext. clear n. intros n. rewrite conv_iter_r. apply iter_shift_ext. clear n. intros n.
  rewrite conv_scal_l. unfold scal at 1. rewrite conv_scal_r. unfold scal. rewrite sgn_S, inject_Z_opp. ring.
Qed.
(** Cancelling a product of the 1 - t^r. *)
Lemma cancel_omp rs F G : zprodl rs <> 0%Z -> conv F (product (map one_minus_power rs)) ~= conv G (product (map one_minus_power rs)) -> F ~= G.
Proof.
  intros NZ H. apply (conv_cancel (gprod rs)); [now apply gprod_nz|].
  assert (X : forall F, Nat.iter (length rs) shift (scal (inject_Z (sgn (length rs))) (conv F (gprod rs))) ~= conv F (product (map one_minus_power rs))).
  { intros F0 n. rewrite (conv_ext F0 F0 _ _ (fun _ => Qeq_refl _) (product_omp rs) n), conv_iter_r. apply iter_shift_ext. intros m. symmetry. apply conv_scal_r. }
  assert (K : Nat.iter (length rs) shift (scal (inject_Z (sgn (length rs))) (conv F (gprod rs))) ~= Nat.iter (length rs) shift (scal (inject_Z (sgn (length rs))) (conv G (gprod rs)))) by (intros n; now rewrite !X).
  pose proof (iter_shift_inj _ _ _ K) as K2. intros n. specialize (K2 n). unfold scal in K2. refine (proj1 (Qmult_inj_l _ _ _ _) K2). intros E. pose proof (sgn_sq' (length rs)) as E1. rewrite E in E1. discriminate.
Qed.
Lemma qF_sum rs l : (fun k => qsum (fun a => qF rs a k) l) ~= conv (power_sum l) (sinv (gprod rs)).
Proof. intros n. unfold power_sum. rewrite (conv_qsum (fun a => bser a)). reflexivity. Qed.
Definition resB (rs ss : list Z) : ser := scal (inject_Z (sgn (length rs))) (fun k => qsum (fun a => qF rs a k) ss).
Lemma resB_ok rs ss : zprodl rs <> 0%Z -> conv (resB rs ss) (product (map one_minus_power rs)) ~= Nat.iter (length rs) shift (power_sum ss).
Proof.
  intros NZ n. rewrite (conv_ext _ _ _ _ (fun _ => Qeq_refl _) (product_omp rs) n), conv_iter_r. apply iter_shift_ext. clear n. intros n. unfold resB. rewrite conv_scal_l. unfold scal at 1. rewrite conv_scal_r. unfold scal. rewrite Qmult_assoc, sgn_sq', Qmult_1_l.
  rewrite (conv_ext _ _ _ _ (qF_sum rs ss) (fun _ => Qeq_refl _) n). enough (E : sequal (conv (conv (power_sum ss) (sinv (gprod rs))) (gprod rs)) (power_sum ss)) by apply E.
  transitivity (conv (power_sum ss) (conv (sinv (gprod rs)) (gprod rs))); [ring|]. rewrite gprod_inv by exact NZ. ring.
Qed.
Lemma value_unique rs ss q : zprodl rs <> 0%Z -> value_at_one rs ss q -> q == resB rs ss (length rs).
Proof. intros NZ (F & HF & EQ). rewrite <- EQ. apply (cancel_omp rs); auto. intros n. now rewrite HF, resB_ok. Qed.
Lemma value_exists rs ss : zprodl rs <> 0%Z -> value_at_one rs ss (resB rs ss (length rs)).
Proof. intros NZ. exists (resB rs ss). split; [now apply resB_ok|reflexivity]. Qed.
Definition tsub (g : list Z) (p : gpoly) : ser := fun k => qsum (fun a => inject_Z (fst a) * bser (zdot g (snd a)) k) p.
Lemma tsub_equal g p q : gequal p q -> tsub g p ~= tsub g q.
Proof.
  intros H n. unfold tsub. set (K := nodup (list_eq_dec Z.eq_dec) (map snd p ++ map snd q)).
  assert (ND : NoDup K) by apply NoDup_nodup.
  rewrite (lin_coeff (fun v => bser (zdot g v) n) K ND p), (lin_coeff (fun v => bser (zdot g v) n) K ND q).
  - apply qsum_ext. intros v _. now rewrite H.
  - intros v Hv. apply nodup_In, in_or_app. auto.
  - intros v Hv. apply nodup_In, in_or_app. auto.
Qed.
Lemma tsub_app g p q : tsub g (p ++ q) ~= sadd (tsub g p) (tsub g q).
Proof. intros n. unfold tsub, sadd. apply qsum_app. Qed.
Lemma tsub_scale g c p : tsub g (gscale c p) ~= scal (inject_Z c) (tsub g p).
Proof. intros n. unfold tsub, scal, gscale. rewrite qsum_map, <- qsum_scale. apply qsum_ext. intros a _. cbn [fst snd]. rewrite inject_Z_mult. ring. Qed.
Lemma tsub_mul g d p q : wfp d p -> wfp d q -> tsub g (gmul p q) ~= conv (tsub g p) (tsub g q).
Proof.
  intros Wp Wq n. unfold tsub at 2. rewrite (conv_qsum (fun a k => inject_Z (fst a) * bser (zdot g (snd a)) k)). unfold tsub at 1, gmul. rewrite qsum_flat. apply qsum_ext. intros a Ha. rewrite qsum_map. unfold tsub.
  rewrite (conv_qsum_r (fun b k => inject_Z (fst b) * bser (zdot g (snd b)) k)). apply qsum_ext. intros b Hb. cbn [fst snd].
  unfold wfp in *. rewrite Forall_forall in Wp, Wq. rewrite zdot_vadd by (rewrite Wp, Wq by auto; reflexivity).
  change (fun k => inject_Z (fst a) * bser (zdot g (snd a)) k) with (scal (inject_Z (fst a)) (bser (zdot g (snd a)))).
  change (fun k => inject_Z (fst b) * bser (zdot g (snd b)) k) with (scal (inject_Z (fst b)) (bser (zdot g (snd b)))).
  rewrite conv_scal_l. unfold scal at 1. rewrite conv_scal_r. unfold scal. rewrite bser_add, inject_Z_mult. ring.
Qed.
Lemma tsub_one g d : tsub g (gone d) ~= sone.
Proof. intros n. unfold tsub, gone. cbn [qsum fst snd]. rewrite zdot_zero. rewrite bser_0. change (inject_Z 1) with 1. ring. Qed.
Lemma tsub_points g ps : tsub g (gpoints ps) ~= power_sum (map (zdot g) ps).
Proof. intros n. unfold tsub, gpoints, power_sum. rewrite !qsum_map. apply qsum_ext. intros a _. cbn [fst snd]. change (inject_Z 1) with 1. ring. Qed.
Lemma tsub_denom g d rays : Forall (fun r => length r = d) rays -> tsub g (gdenom d rays) ~= product (map one_minus_power (map (zdot g) rays)).
Proof.
  induction rays as [|r rays IH]; intros F n; cbn [gdenom fold_right map product]; [apply tsub_one|]. fold (gdenom d rays) (product (map one_minus_power (map (zdot g) rays))).
  rewrite (tsub_mul g d); [|repeat constructor; cbn [snd]; [apply repeat_length|exact (Forall_inv F)]|apply gdenom_wf; exact (Forall_inv_tail F)].
  apply conv_ext; [|apply IH; exact (Forall_inv_tail F)]. intros k. unfold tsub, one_minus_power. cbn [qsum fst snd]. rewrite zdot_zero. rewrite bser_0. change (inject_Z 1) with 1. change (inject_Z (-1)) with (-(1)). ring.
Qed.
Lemma tsub_den d g cs : Forall (gc_ok d) cs -> tsub g (snd (grational d cs)) ~= product (map one_minus_power (map (zdot g) (all_rays cs))).
Proof.
  induction cs as [|[[c rays] pts] cs IH]; intros F n; cbn [grational fold_right]; [apply tsub_one|]. fold (grational d cs). destruct (Forall_inv F) as (H1 & H2 & H3). cbn [fst snd all_rays flat_map] in *. rewrite (tsub_mul g d); [|now apply gdenom_wf|apply grational_wf; exact (Forall_inv_tail F)].
  rewrite (conv_ext _ _ _ _ (tsub_denom g d rays H2) (IH (Forall_inv_tail F)) n). rewrite map_app, map_app, product_app. reflexivity.
Qed.
Definition bres (d : nat) (g : list Z) (c : gcone) : ser :=
  let '(coef, rays, pts) := c in scal (inject_Z coef) (Nat.iter (d - length rays) shift (resB (map (zdot g) rays) (map (zdot g) pts))).
Definition btotal (d : nat) (g : list Z) (cs : list gcone) : ser := fun k => qsum (fun c => bres d g c k) cs.
Lemma bres_ok d g coef rays pts : (length rays <= d)%nat -> zprodl (map (zdot g) rays) <> 0%Z ->
  conv (bres d g (coef, rays, pts)) (product (map one_minus_power (map (zdot g) rays))) ~= Nat.iter d shift (scal (inject_Z coef) (power_sum (map (zdot g) pts))).
Proof.
  intros L NZ n. unfold bres. rewrite conv_scal_l. rewrite iter_shift_scal. apply scal_ext. clear n. intros n. rewrite conv_iter_l.
  rewrite (iter_shift_ext (d - length rays) _ _ (resB_ok (map (zdot g) rays) (map (zdot g) pts) NZ) n). rewrite map_length, <- iter_add_shift. replace (d - length rays + length rays)%nat with d by lia. reflexivity.
Qed.
Lemma btotal_ok d g cs : Forall (gc_ok d) cs -> zprodl (map (zdot g) (all_rays cs)) <> 0%Z ->
  conv (btotal d g cs) (tsub g (snd (grational d cs))) ~= Nat.iter d shift (tsub g (fst (grational d cs))).
Proof.
  induction cs as [|[[c rays] pts] cs IH]; intros F NZ n.
  - unfold btotal. cbn [qsum grational fold_right fst snd]. rewrite (conv_ext (fun _ => 0) (fun _ => 0) _ _ (fun _ => Qeq_refl _) (tsub_one g d) n), conv_one_r. unfold tsub. cbn [qsum]. clear. revert n. induction d as [|d IH]; intros n; [reflexivity|]. change (Nat.iter (S d) shift (fun _ : nat => 0)) with (shift (Nat.iter d shift (fun _ => 0))). destruct n; cbn [shift]; [reflexivity|apply IH].
  - destruct (Forall_inv F) as (H1 & H2 & H3). pose proof (Forall_inv_tail F) as F'. destruct (grational_wf d cs F') as [W1 W2]. cbn [fst snd all_rays flat_map] in *. fold (all_rays cs) in *. rewrite map_app, zprodl_app in NZ. specialize (IH F' ltac:(lia)).
    assert (NZ1 : zprodl (map (zdot g) rays) <> 0%Z) by lia.
    cbn [grational fold_right fst snd]. fold (grational d cs). set (ED := tsub g (snd (grational d cs))) in *. set (EN := tsub g (fst (grational d cs))) in *. set (B := product (map one_minus_power (map (zdot g) rays))).
    assert (E1 : tsub g (gmul (gdenom d rays) (snd (grational d cs))) ~= conv B ED).
    { intros k. rewrite (tsub_mul g d) by auto using gdenom_wf. apply conv_ext; [now apply tsub_denom|reflexivity]. }
    assert (E2 : tsub g (gmul (gscale c (gpoints pts)) (snd (grational d cs)) ++ gmul (fst (grational d cs)) (gdenom d rays)) ~= sadd (conv (scal (inject_Z c) (power_sum (map (zdot g) pts))) ED) (conv EN B)).
    { intros k. rewrite tsub_app. unfold sadd. apply Qplus_comp.
      - rewrite (tsub_mul g d) by auto using gscale_wf, gpoints_wf. apply conv_ext; [|reflexivity]. intros m. rewrite tsub_scale. apply scal_ext. apply tsub_points.
      - rewrite (tsub_mul g d) by auto using gdenom_wf. apply conv_ext; [reflexivity|now apply tsub_denom]. }
    rewrite (conv_ext _ _ _ _ (fun _ => Qeq_refl _) E1 n), (iter_shift_ext d _ _ E2 n).
    change (btotal d g ((c, rays, pts) :: cs)) with (sadd (bres d g (c, rays, pts)) (btotal d g cs)).
    rewrite conv_add_l, iter_shift_add. unfold sadd. apply Qplus_comp.
    + rewrite <- conv_assoc. etransitivity; [exact (conv_ext _ _ ED ED (bres_ok d g c rays pts H1 NZ1) (fun _ => Qeq_refl _) n)|apply conv_iter_l].
    + rewrite (conv_ext _ _ _ _ (fun _ => Qeq_refl _) (conv_comm B ED) n), <- conv_assoc. etransitivity; [exact (conv_ext _ _ B B IH (fun _ => Qeq_refl _) n)|apply conv_iter_l].
Qed.
Lemma btotal_points d g cs points : Forall (gc_ok d) cs -> zprodl (map (zdot g) (all_rays cs)) <> 0%Z -> Forall (fun p => length p = d) points -> generates d cs points ->
  btotal d g cs ~= Nat.iter d shift (power_sum (map (zdot g) points)).
Proof.
  intros F NZ FP G. apply (cancel_omp (map (zdot g) (all_rays cs))); auto. intros n.
  assert (E : product (map one_minus_power (map (zdot g) (all_rays cs))) ~= tsub g (snd (grational d cs))) by (intros k; symmetry; now apply tsub_den).
  rewrite (conv_ext _ _ _ _ (fun _ => Qeq_refl _) E n), btotal_ok by auto. rewrite (conv_ext _ _ _ _ (fun _ => Qeq_refl _) E n), conv_iter_l. apply iter_shift_ext. clear n. intros n. rewrite (tsub_equal g _ _ G n). rewrite (tsub_mul g d); [|now apply gpoints_wf|now apply grational_wf]. apply conv_ext; [apply tsub_points|reflexivity].
Qed.
Lemma btotal_count d g cs points : Forall (gc_ok d) cs -> zprodl (map (zdot g) (all_rays cs)) <> 0%Z -> Forall (fun p => length p = d) points -> generates d cs points ->
  qsum (fun c => inject_Z (fst (fst c)) * resB (map (zdot g) (snd (fst c))) (map (zdot g) (snd c)) (length (snd (fst c)))) cs == qnat (length points).
Proof.
  intros F NZ FP G. pose proof (btotal_points d g cs points F NZ FP G d) as E. pose proof (iter_shift_nth d (power_sum (map (zdot g) points)) 0) as I. rewrite Nat.add_0_r in I. rewrite I in E. clear I. unfold power_sum in E. rewrite qsum_map in E. rewrite (qsum_ones (fun a => bser (zdot g a) 0%nat)) in E by (intros a; cbn; reflexivity). rewrite <- E. unfold btotal. apply qsum_ext. intros [[c rays] pts] Hc. rewrite Forall_forall in F. destruct (F _ Hc) as (H1 & _ & _). cbn [fst snd bres] in *. unfold scal.
  replace (Nat.iter (d - length rays) shift (resB (map (zdot g) rays) (map (zdot g) pts)) d) with (Nat.iter (d - length rays) shift (resB (map (zdot g) rays) (map (zdot g) pts)) (d - length rays + length rays)%nat) by (f_equal; lia). rewrite iter_shift_nth. reflexivity.
Qed.

