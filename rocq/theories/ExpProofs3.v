(** From identities of rational generating functions to numbers of points. *)
From Coq Require Import QArith Qfield Qpower Lqa.
From Verif Require Import Common IntegSpec IntegMath DecompProofs DecompProofs4 InterpProofs2 Series ZMat HermiteProofs Piped Exponential ExpSpec ExpProofs ExpProofs2.
Open Scope Q_scope.

(** Substituting z^v = exp(<g,v> t). *)
Definition esub (g : list Z) (p : gpoly) : ser := fun k => qsum (fun a => inject_Z (fst a) * sexp (inject_Z (zdot g (snd a))) k) p.
Lemma lin_coeff (f : list Z -> Q) K : NoDup K -> forall p, incl (map snd p) K -> qsum (fun a => inject_Z (fst a) * f (snd a)) p == qsum (fun v => inject_Z (gcoeff p v) * f v) K.
Proof.
  intros ND. induction p as [|a p IH]; intros H; cbn [qsum gcoeff].
  - rewrite qsum_zero; [reflexivity|]. intros v _. unfold inject_Z. ring.
  - rewrite IH by (intros v Hv; apply H; now right). cbn [map] in H.
    rewrite (qsum_ext (fun v => inject_Z (if list_eq_dec Z.eq_dec (snd a) v then (fst a + gcoeff p v)%Z else gcoeff p v) * f v) (fun v => (if list_eq_dec Z.eq_dec (snd a) v then inject_Z (fst a) * f v else 0) + inject_Z (gcoeff p v) * f v)).
    + rewrite qsum_plus. apply Qplus_comp; [|reflexivity]. rewrite (qsum_single _ K (snd a)); auto.
      * destruct (list_eq_dec Z.eq_dec (snd a) (snd a)); [reflexivity|contradiction].
      * apply H. now left.
      * intros b _ Hb. destruct (list_eq_dec Z.eq_dec (snd a) b); [congruence|reflexivity].
    + intros v _. destruct (list_eq_dec Z.eq_dec (snd a) v); [rewrite inject_Z_plus|]; ring.
Qed.
Lemma esub_equal g p q : gequal p q -> esub g p ~= esub g q.
Proof.
  intros H n. unfold esub. set (K := nodup (list_eq_dec Z.eq_dec) (map snd p ++ map snd q)).
  assert (ND : NoDup K) by apply NoDup_nodup.
  rewrite (lin_coeff (fun v => sexp (inject_Z (zdot g v)) n) K ND p), (lin_coeff (fun v => sexp (inject_Z (zdot g v)) n) K ND q).
  - apply qsum_ext. intros v _. now rewrite H.
  - intros v Hv. apply nodup_In, in_or_app. auto.
  - intros v Hv. apply nodup_In, in_or_app. auto.
Qed.
Definition wfp (n : nat) (p : gpoly) : Prop := Forall (fun a => length (snd a) = n) p.
Lemma vadd_len u : forall v, length u = length v -> length (vadd u v) = length u.
Proof. induction u as [|x u IH]; intros [|y v] H; cbn [vadd length] in *; try lia. rewrite IH; lia. Qed.
Lemma vadd_nth u : forall v k, length u = length v -> nth k (vadd u v) 0%Z = (nth k u 0 + nth k v 0)%Z.
Proof. induction u as [|x u IH]; intros [|y v] [|k] H; cbn [vadd length nth] in *; try lia. apply IH. lia. Qed.
Lemma zdot_vadd g u v : length u = length v -> zdot g (vadd u v) = (zdot g u + zdot g v)%Z.
Proof. intros L. unfold zdot. rewrite <- zsum_add. apply zsum_ext. intros k _. rewrite vadd_nth by auto. ring. Qed.
Lemma zdot_zero g n : zdot g (repeat 0%Z n) = 0%Z.
Proof. unfold zdot. apply zsum_zero. intros k _. rewrite nth_repeat. ring. Qed.
Lemma esub_app g p q : esub g (p ++ q) ~= sadd (esub g p) (esub g q).
Proof. intros n. unfold esub, sadd. apply qsum_app. Qed.
Lemma esub_scale g c p : esub g (gscale c p) ~= scal (inject_Z c) (esub g p).
Proof. intros n. unfold esub, scal, gscale. rewrite qsum_map, <- qsum_scale. apply qsum_ext. intros a _. cbn [fst snd]. rewrite inject_Z_mult. ring. Qed.
Lemma sexp_ext a b : a == b -> sexp a ~= sexp b.
Proof. intros H n. unfold sexp. now rewrite H. Qed.
Lemma conv_qsum {A} (f : A -> ser) l h n : conv (fun k => qsum (fun a => f a k) l) h n == qsum (fun a => conv (f a) h n) l.
Proof.
  induction l as [|a l IH]; cbn [qsum].
  - unfold conv. apply qsum_zero. intros; ring.
  - rewrite (conv_add_l (f a) (fun k => qsum (fun a => f a k) l) h n). unfold sadd. now rewrite IH.
Qed.
Lemma conv_qsum_r {A} (f : A -> ser) l h n : conv h (fun k => qsum (fun a => f a k) l) n == qsum (fun a => conv h (f a) n) l.
Proof. rewrite conv_comm, conv_qsum. apply qsum_ext. intros a _. apply conv_comm. Qed.
Lemma esub_mul g d p q : wfp d p -> wfp d q -> esub g (gmul p q) ~= conv (esub g p) (esub g q).
Proof.
  intros Wp Wq n. unfold esub at 2. rewrite (conv_qsum (fun a k => inject_Z (fst a) * sexp (inject_Z (zdot g (snd a))) k)). unfold esub at 1, gmul. rewrite qsum_flat. apply qsum_ext. intros a Ha. rewrite qsum_map. unfold esub.
  rewrite (conv_qsum_r (fun b k => inject_Z (fst b) * sexp (inject_Z (zdot g (snd b))) k)). apply qsum_ext. intros b Hb. cbn [fst snd].
  unfold wfp in *. rewrite Forall_forall in Wp, Wq. rewrite zdot_vadd by (rewrite Wp, Wq by auto; reflexivity).
  change (fun k => inject_Z (fst a) * sexp (inject_Z (zdot g (snd a))) k) with (scal (inject_Z (fst a)) (sexp (inject_Z (zdot g (snd a))))).
  change (fun k => inject_Z (fst b) * sexp (inject_Z (zdot g (snd b))) k) with (scal (inject_Z (fst b)) (sexp (inject_Z (zdot g (snd b))))).
  rewrite conv_scal_l. unfold scal at 1. rewrite conv_scal_r. unfold scal. rewrite exp_add, inject_Z_plus, inject_Z_mult. ring.
Qed.
Lemma gmul_wf d p q : wfp d p -> wfp d q -> wfp d (gmul p q).
Proof.
  unfold wfp, gmul. rewrite !Forall_forall. intros P Q0 a Ha. apply in_flat_map in Ha as (x & Hx & Ha). apply in_map_iff in Ha as (y & <- & Hy). cbn [snd]. specialize (P x Hx). specialize (Q0 y Hy). cbv beta in P, Q0. rewrite vadd_len; congruence.
Qed.
Lemma gone_wf d : wfp d (gone d).
Proof. repeat constructor. cbn [snd]. apply repeat_length. Qed.
Lemma gdenom_wf d rays : Forall (fun r => length r = d) rays -> wfp d (gdenom d rays).
Proof.
  induction rays as [|r rays IH]; intros F; cbn [gdenom fold_right]; [apply gone_wf|]. fold (gdenom d rays). apply gmul_wf; [|apply IH; exact (Forall_inv_tail F)]. repeat constructor; cbn [snd]; [apply repeat_length|exact (Forall_inv F)].
Qed.
Lemma gpoints_wf d ps : Forall (fun r => length r = d) ps -> wfp d (gpoints ps).
Proof. intros F. unfold wfp, gpoints. rewrite Forall_map. exact F. Qed.
Lemma gscale_wf d c p : wfp d p -> wfp d (gscale c p).
Proof. intros F. unfold wfp, gscale. rewrite Forall_map. exact F. Qed.
Lemma app_wf d p q : wfp d p -> wfp d q -> wfp d (p ++ q).
Proof. intros F G. apply Forall_app. auto. Qed.
Lemma esub_one g d : esub g (gone d) ~= sone.
Proof. intros n. unfold esub, gone. cbn [qsum fst snd]. rewrite zdot_zero. change (inject_Z 0) with 0. rewrite exp_0. change (inject_Z 1) with 1. ring. Qed.
Lemma esub_points g ps : esub g (gpoints ps) ~= exp_sum (map (zdot g) ps).
Proof. intros n. unfold esub, gpoints, exp_sum. rewrite !qsum_map. apply qsum_ext. intros a _. cbn [fst snd]. change (inject_Z 1) with 1. ring. Qed.
Lemma esub_denom g d rays : Forall (fun r => length r = d) rays -> esub g (gdenom d rays) ~= product (map one_minus_exp (map (zdot g) rays)).
Proof.
  induction rays as [|r rays IH]; intros F n; cbn [gdenom fold_right map product]; [apply esub_one|]. fold (gdenom d rays) (product (map one_minus_exp (map (zdot g) rays))).
  rewrite (esub_mul g d); [|repeat constructor; cbn [snd]; [apply repeat_length|exact (Forall_inv F)]|apply gdenom_wf; exact (Forall_inv_tail F)].
  apply conv_ext; [|apply IH; exact (Forall_inv_tail F)]. intros k. unfold esub, one_minus_exp. cbn [qsum fst snd]. rewrite zdot_zero. change (inject_Z 0) with 0. rewrite exp_0. change (inject_Z 1) with 1. change (inject_Z (-1)) with (-(1)). ring.
Qed.
(** All rays of the cones. *)
Notation gcone := (Z * list (list Z) * list (list Z))%type.
Definition gc_ok (d : nat) (c : gcone) : Prop := (length (snd (fst c)) <= d)%nat /\ Forall (fun r => length r = d) (snd (fst c)) /\ Forall (fun p => length p = d) (snd c).
Definition all_rays (cs : list gcone) : list (list Z) := flat_map (fun c => snd (fst c)) cs.
Lemma product_app l r : product (l ++ r) ~= conv (product l) (product r).
Proof.
  induction l as [|a l IH]; intros n; cbn [app product fold_right]; [now rewrite conv_one_l|]. fold (product (l ++ r)) (product l). rewrite (conv_ext a a _ _ (fun _ => Qeq_refl _) IH n). symmetry. apply conv_assoc.
Qed.
Lemma grational_wf d cs : Forall (gc_ok d) cs -> wfp d (fst (grational d cs)) /\ wfp d (snd (grational d cs)).
Proof.
  induction cs as [|[[c rays] pts] cs IH]; intros F; cbn [grational fold_right]; [split; [constructor|apply gone_wf]|]. fold (grational d cs). destruct (IH (Forall_inv_tail F)) as [I1 I2]. destruct (Forall_inv F) as (H1 & H2 & H3). cbn [fst snd] in *.
  split; [apply app_wf|]; apply gmul_wf; auto using gdenom_wf, gscale_wf, gpoints_wf.
Qed.
Lemma esub_den d g cs : Forall (gc_ok d) cs -> esub g (snd (grational d cs)) ~= product (map one_minus_exp (map (zdot g) (all_rays cs))).
Proof.
  induction cs as [|[[c rays] pts] cs IH]; intros F n; cbn [grational fold_right]; [apply esub_one|]. fold (grational d cs). destruct (Forall_inv F) as (H1 & H2 & H3). cbn [fst snd all_rays flat_map] in *. rewrite (esub_mul g d); [|now apply gdenom_wf|apply grational_wf; exact (Forall_inv_tail F)].
  rewrite (conv_ext _ _ _ _ (esub_denom g d rays H2) (IH (Forall_inv_tail F)) n). rewrite map_app, map_app, product_app. reflexivity.
Qed.
(** t^(d - number of rays) F_c *)
Definition gres (d : nat) (g : list Z) (c : gcone) : ser :=
  let '(coef, rays, pts) := c in scal (inject_Z coef) (Nat.iter (d - length rays) shift (resF (map (zdot g) rays) (map (zdot g) pts))).
Definition gtotal (d : nat) (g : list Z) (cs : list gcone) : ser := fun k => qsum (fun c => gres d g c k) cs.
Lemma iter_add_shift a b f : Nat.iter (a + b) shift f = Nat.iter a shift (Nat.iter b shift f).
Proof. induction a as [|a IH]; [reflexivity|]. cbn [Nat.add]. change (shift (Nat.iter (a + b) shift f) = shift (Nat.iter a shift (Nat.iter b shift f))). now rewrite IH. Qed.
Lemma gres_ok d g coef rays pts : (length rays <= d)%nat -> zprodl (map (zdot g) rays) <> 0%Z ->
  conv (gres d g (coef, rays, pts)) (product (map one_minus_exp (map (zdot g) rays))) ~= Nat.iter d shift (scal (inject_Z coef) (exp_sum (map (zdot g) pts))).
Proof.
  intros L NZ n. unfold gres. rewrite conv_scal_l. rewrite iter_shift_scal. apply scal_ext. clear n. intros n. rewrite conv_iter_l.
  rewrite (iter_shift_ext (d - length rays) _ _ (resF_ok (map (zdot g) rays) (map (zdot g) pts) NZ) n). rewrite map_length, <- iter_add_shift. replace (d - length rays + length rays)%nat with d by lia. reflexivity.
Qed.
Lemma zprodl_app l r : zprodl (l ++ r) = (zprodl l * zprodl r)%Z.
Proof. induction l as [|a l IH]; cbn [app zprodl]; [lia|]. rewrite IH. lia. Qed.
Lemma gtotal_ok d g cs : Forall (gc_ok d) cs -> zprodl (map (zdot g) (all_rays cs)) <> 0%Z ->
  conv (gtotal d g cs) (esub g (snd (grational d cs))) ~= Nat.iter d shift (esub g (fst (grational d cs))).
Proof.
  induction cs as [|[[c rays] pts] cs IH]; intros F NZ n.
  - unfold gtotal. cbn [qsum grational fold_right fst snd]. rewrite (conv_ext (fun _ => 0) (fun _ => 0) _ _ (fun _ => Qeq_refl _) (esub_one g d) n), conv_one_r. unfold esub. cbn [qsum]. clear. revert n. induction d as [|d IH]; intros n; [reflexivity|]. change (Nat.iter (S d) shift (fun _ : nat => 0)) with (shift (Nat.iter d shift (fun _ => 0))). destruct n; cbn [shift]; [reflexivity|apply IH].
  - destruct (Forall_inv F) as (H1 & H2 & H3). pose proof (Forall_inv_tail F) as F'. destruct (grational_wf d cs F') as [W1 W2]. cbn [fst snd all_rays flat_map] in *. fold (all_rays cs) in *. rewrite map_app, zprodl_app in NZ. specialize (IH F' ltac:(lia)).
    assert (NZ1 : zprodl (map (zdot g) rays) <> 0%Z) by lia.
    cbn [grational fold_right fst snd]. fold (grational d cs). set (ED := esub g (snd (grational d cs))) in *. set (EN := esub g (fst (grational d cs))) in *. set (B := product (map one_minus_exp (map (zdot g) rays))).
    assert (E1 : esub g (gmul (gdenom d rays) (snd (grational d cs))) ~= conv B ED).
    { intros k. rewrite (esub_mul g d) by auto using gdenom_wf. apply conv_ext; [now apply esub_denom|reflexivity]. }
    assert (E2 : esub g (gmul (gscale c (gpoints pts)) (snd (grational d cs)) ++ gmul (fst (grational d cs)) (gdenom d rays)) ~= sadd (conv (scal (inject_Z c) (exp_sum (map (zdot g) pts))) ED) (conv EN B)).
    { intros k. rewrite esub_app. unfold sadd. apply Qplus_comp.
      - rewrite (esub_mul g d) by auto using gscale_wf, gpoints_wf. apply conv_ext; [|reflexivity]. intros m. rewrite esub_scale. apply scal_ext. apply esub_points.
      - rewrite (esub_mul g d) by auto using gdenom_wf. apply conv_ext; [reflexivity|now apply esub_denom]. }
    rewrite (conv_ext _ _ _ _ (fun _ => Qeq_refl _) E1 n), (iter_shift_ext d _ _ E2 n).
    change (gtotal d g ((c, rays, pts) :: cs)) with (sadd (gres d g (c, rays, pts)) (gtotal d g cs)).
    rewrite conv_add_l, iter_shift_add. unfold sadd. apply Qplus_comp.
    + rewrite <- conv_assoc. etransitivity; [exact (conv_ext _ _ ED ED (gres_ok d g c rays pts H1 NZ1) (fun _ => Qeq_refl _) n)|apply conv_iter_l].
    + rewrite (conv_ext _ _ _ _ (fun _ => Qeq_refl _) (conv_comm B ED) n), <- conv_assoc. etransitivity; [exact (conv_ext _ _ B B IH (fun _ => Qeq_refl _) n)|apply conv_iter_l].
Qed.
Lemma gtotal_points d g cs points : Forall (gc_ok d) cs -> zprodl (map (zdot g) (all_rays cs)) <> 0%Z -> Forall (fun p => length p = d) points -> generates d cs points ->
  gtotal d g cs ~= Nat.iter d shift (exp_sum (map (zdot g) points)).
Proof.
  intros F NZ FP G. apply (cancel_ome (map (zdot g) (all_rays cs))); auto. intros n.
  assert (E : product (map one_minus_exp (map (zdot g) (all_rays cs))) ~= esub g (snd (grational d cs))) by (intros k; symmetry; now apply esub_den).
  rewrite (conv_ext _ _ _ _ (fun _ => Qeq_refl _) E n), gtotal_ok by auto. rewrite (conv_ext _ _ _ _ (fun _ => Qeq_refl _) E n), conv_iter_l. apply iter_shift_ext. clear n. intros n. rewrite (esub_equal g _ _ G n). rewrite (esub_mul g d); [|now apply gpoints_wf|now apply grational_wf]. apply conv_ext; [apply esub_points|reflexivity].
Qed.
Lemma qsum_ones {A} (f : A -> Q) l : (forall a, f a == 1) -> qsum f l == qnat (length l).
Proof. intros H. induction l as [|a l IH]; cbn [qsum length]; [reflexivity|]. rewrite H, IH. unfold qnat. rewrite Nat2Z.inj_succ, <- Z.add_1_l, inject_Z_plus. reflexivity. Qed.
Lemma gtotal_count d g cs points : Forall (gc_ok d) cs -> zprodl (map (zdot g) (all_rays cs)) <> 0%Z -> Forall (fun p => length p = d) points -> generates d cs points ->
  qsum (fun c => inject_Z (fst (fst c)) * resF (map (zdot g) (snd (fst c))) (map (zdot g) (snd c)) (length (snd (fst c)))) cs == qnat (length points).
Proof.
  intros F NZ FP G. pose proof (gtotal_points d g cs points F NZ FP G d) as E. pose proof (iter_shift_nth d (exp_sum (map (zdot g) points)) 0) as I. rewrite Nat.add_0_r in I. rewrite I in E. clear I. unfold exp_sum in E. rewrite qsum_map in E. rewrite (qsum_ones (fun a => sexp (inject_Z (zdot g a)) 0%nat)) in E by (intros a; unfold sexp; cbn; field). rewrite <- E. unfold gtotal. apply qsum_ext. intros [[c rays] pts] Hc. rewrite Forall_forall in F. destruct (F _ Hc) as (H1 & _ & _). cbn [fst snd gres] in *. unfold scal.
  replace (Nat.iter (d - length rays) shift (resF (map (zdot g) rays) (map (zdot g) pts)) d) with (Nat.iter (d - length rays) shift (resF (map (zdot g) rays) (map (zdot g) pts)) (d - length rays + length rays)%nat) by (f_equal; lia). rewrite iter_shift_nth. reflexivity.
Qed.
