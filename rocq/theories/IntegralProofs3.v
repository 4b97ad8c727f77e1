(** Generic forms: the Riemann sums converge to the sum over the cones. *)
From Coq Require Import QArith Qabs Qfield Lqa Qpower.
From Verif Require Import Common IntegSpec SmithSpec ZMat Hermite HermiteProofs Det DetProofs RatVec RatVecSpec Piped PipedSpec PipedProofs PipedProofs3 PipedProofs4 ConeSpec ConeProofs CountSpec IntegralSpec Barvinok BrionLinear BrionProofs BrionProofs2 BrionProofs3 EulerProofs IntegMath Series DecompProofs ExpSpec ExpProofs ExpProofs2 ExpProofs3 ExpProofs4 CountProofs2 CountProofs6 InterpProofs2 IntegProofs5 PerturbSpec PerturbProofs4 PerturbProofs5 PerturbProofs6 IntegralProofs IntegralProofs2 LimitProofs.
Open Scope Q_scope.

Lemma zdot_dot a : forall x, zdot a x = dot a x.
Proof.
  induction a as [|y a IH]; intros x; [reflexivity|]. destruct x as [|z x].
  - unfold zdot. cbn [dot]. apply ZMat.zsum_zero. intros k _. destruct k; cbn; ring.
  - cbn [dot]. rewrite <- IH. unfold zdot. cbn [length]. assert (H : forall m f, (zsum (S m) f = f 0%nat + zsum m (fun k => f (S k)))%Z); [|now rewrite H].
    clear. induction m as [|m IH]; intros f; [cbn; lia|]. change (zsum (S (S m)) f) with (zsum (S m) f + f (S m))%Z. rewrite IH. cbn [zsum]. lia.
Qed.
Lemma todd_head rs : todd_ser rs 0%nat == sign (length rs).
Proof.
  induction rs as [|r rs IH]; [reflexivity|]. unfold todd_ser. cbn [map ExpSpec.product fold_right]. change (conv (sdil (inject_Z r) (sinv useries)) (todd_ser rs) 0 == sign (length (r :: rs))). rewrite conv_0, IH. unfold sdil. rewrite sinv_0. unfold sign, useries. cbn [length]. rewrite Nat.odd_succ, <- Nat.negb_odd. destruct (Nat.odd (length rs)); reflexivity.
Qed.
Lemma cone_limit rs bs a N : tends (fun k => resF rs (map (fun b => (b + k * a)%Z) bs) N / inject_Z k ^ Z.of_nat N)
  (/ inject_Z (zprodl rs) * (sign (length rs) * (inject_Z (Z.of_nat (length bs)) * (inject_Z a ^ Z.of_nat N / qfact N)))).
Proof.
  assert (H : tends (fun k => / inject_Z (zprodl rs) * qsum (fun i => todd_ser rs i * qsum (fun b => / qfact (N - i) * ((inject_Z b + inject_Z k * inject_Z a) ^ Z.of_nat (N - i) / inject_Z k ^ Z.of_nat N)) bs) (seq 0 (S N)))
    (/ inject_Z (zprodl rs) * qsum (fun i => todd_ser rs i * qsum (fun b => / qfact (N - i) * (match i with O => inject_Z a ^ Z.of_nat N | _ => 0 end)) bs) (seq 0 (S N)))).
  { apply tends_scale, tends_qsum. intros i Hi. apply in_seq in Hi. apply tends_scale, tends_qsum. intros b _. apply tends_scale, tends_affine. lia. }
  eapply tends_eq; [|eapply tends_ext; [|exact H]].
  - apply Qmult_comp; [reflexivity|]. rewrite qsum_seq_head. rewrite (qsum_zero (fun c => todd_ser rs (S c) * _)) by (intros c _; rewrite qsum_scale, (qsum_zero (fun _ => 0)) by reflexivity; ring). rewrite todd_head, Nat.sub_0_r, qsum_scale.
    assert (E : qsum (fun _ : Z => inject_Z a ^ Z.of_nat N) bs == inject_Z (Z.of_nat (length bs)) * inject_Z a ^ Z.of_nat N).
    { clear H. generalize (inject_Z a ^ Z.of_nat N). intros q. induction bs as [|b l IH]; cbn [qsum length]; [change (inject_Z (Z.of_nat 0)) with 0; ring|]. rewrite IH, Nat2Z.inj_succ, <- Z.add_1_l, inject_Z_plus. change (inject_Z 1) with 1. ring. }
    rewrite E. field. apply qfact_nz.
  - exists 1%Z. intros k Hk. assert (Pk : 0 < inject_Z k) by (unfold Qlt; cbn; lia). assert (Nk : ~ inject_Z k ^ Z.of_nat N == 0) by (apply Qpower_not_0; lra). unfold resF, scal, conv. unfold Qdiv at 2. rewrite <- Qmult_assoc. apply Qmult_comp; [reflexivity|].
    rewrite (Qmult_comm (qsum _ _)), <- qsum_scale. apply qsum_ext. intros i _. rewrite (Qmult_comm (/ _)), <- Qmult_assoc. apply Qmult_comp; [reflexivity|]. unfold exp_sum. rewrite qsum_map, (Qmult_comm (qsum _ _)), <- qsum_scale. apply qsum_ext. intros b _. unfold sexp.
    rewrite inject_Z_plus, inject_Z_mult. field. split; [apply qfact_nz|exact Nk].
Qed.
Lemma riemann_scaled n l m k points : (0 < k)%Z -> riemann_sum n l m k points == inject_Z 1 * qsum (fun y => inject_Z (dot l y) ^ Z.of_nat m) points / inject_Z k ^ Z.of_nat (n + m).
Proof.
  intros Hk. assert (Pk : 0 < inject_Z k) by (unfold Qlt; cbn; lia). unfold riemann_sum. rewrite sum_over_qsum, inj_pow, Qpow_add. assert (N1 : ~ inject_Z k ^ Z.of_nat n == 0) by (apply Qpower_not_0; lra). assert (N2 : ~ inject_Z k ^ Z.of_nat m == 0) by (apply Qpower_not_0; lra).
  rewrite (qsum_ext _ (fun y => / inject_Z k ^ Z.of_nat m * inject_Z (dot l y) ^ Z.of_nat m)) by (intros y _; unfold Qdiv; rewrite Qmult_power, Qinv_power; ring). rewrite qsum_scale. change (inject_Z 1) with 1. field. split; assumption.
Qed.
(** The value of Lawrence's sum at a generic form. *)
Definition generic_sum (n m : nat) (g : list Z) (cones : list (list Z * list (list Z))) : Q :=
  sign n * (qfact m / qfact (n + m)) * qsum (fun c => inject_Z (Z.abs (det n (ent (snd c)))) * inject_Z (dot g (fst c)) ^ Z.of_nat (n + m) / inject_Z (zprodl (map (dot g) (snd c)))) cones.
Section Lim.
Context (n : nat) (rows : list (list Z)) (vs : list (list Z)) (tri : list Z -> list (list (list Z))).
Context (Hn : (0 < n)%nat) (LR : forall c, In c rows -> length c = S n) (LV : forall v, In v vs -> length v = n).
Context (AV : all_vertices n rows (map zpoint vs)) (SP : forall v, In v vs -> splits_tangent_cone n rows v (tri v)).
Context (pts : Z -> list (list Z)) (PT : forall k, (0 < k)%Z -> integer_points n (map (dilate_row k) rows) (pts k)).
Theorem generic_limit g m : (forall v T r, In v vs -> In T (tri v) -> In r T -> dot g r <> 0%Z) ->
  tends (fun k => riemann_sum n g m k (pts k)) (generic_sum n m g (flat_map (fun v => map (pair v) (tri v)) vs)).
Proof.
  intros GN. destruct (items_exist n rows vs tri Hn LR LV AV SP) as (xs & X1 & X2 & X3).
  assert (XV : forall x, In x xs -> In (x_vertex x) vs /\ In (x_rays x) (tri (x_vertex x))).
  { intros x Hx. apply (in_map (fun x => (x_vertex x, x_rays x))) in Hx. rewrite X2 in Hx. apply in_flat_map in Hx as (v & Hv & E). apply in_map_iff in E as (T & E & HT). injection E as <- <-. auto. }
  set (N := (n + m)%nat).
  assert (H : tends (fun k => qfact m * qsum (fun x => resF (map (zdot g) (x_rays x)) (map (fun b => (b + k * zdot g (x_vertex x))%Z) (map (zdot g) (snd x))) N / inject_Z k ^ Z.of_nat N) xs)
    (qfact m * qsum (fun x => / inject_Z (zprodl (map (zdot g) (x_rays x))) * (sign (length (map (zdot g) (x_rays x))) * (inject_Z (Z.of_nat (length (map (zdot g) (snd x)))) * (inject_Z (zdot g (x_vertex x)) ^ Z.of_nat N / qfact N)))) xs)).
  { apply tends_scale, tends_qsum. intros x _. apply cone_limit. }
  eapply tends_eq; [|eapply tends_ext; [|exact H]].
  - unfold generic_sum. rewrite <- X2, qsum_map. rewrite <- !qsum_scale. apply qsum_ext. intros x Hx. cbn [fst snd]. rewrite Forall_forall in X1. destruct (X1 x Hx) as (EX & _ & LP). rewrite !map_length, LP.
    assert (L1 : length (x_rays x) = n) by (destruct x as [[[w v] d] ps]; apply EX). rewrite L1. rewrite zdot_dot. rewrite (map_ext (zdot g) (dot g) (zdot_dot g)). fold N. unfold Qdiv. ring.
  - exists 1%Z. intros k Hk. rewrite riemann_scaled by lia. fold N. assert (Pk : 0 < inject_Z k) by (unfold Qlt; cbn; lia). assert (Nk : ~ inject_Z k ^ Z.of_nat N == 0) by (apply Qpower_not_0; lra).
    pose proof (power_sum n xs k (pts k) g m X1 (fun x Hx => LV _ (proj1 (XV x Hx))) (fun x r Hx Hr => eq_ind_r (fun z => z <> 0%Z) (GN _ _ _ (proj1 (XV x Hx)) (proj2 (XV x Hx)) Hr) (zdot_dot g r))) as PS.
    specialize (PS ltac:(apply Forall_forall; intros p Hp; apply (PT k ltac:(lia)) in Hp; apply Hp) (X3 k (pts k) ltac:(lia) (PT k ltac:(lia)))). fold N in PS.
    assert (E1 : qsum (fun y => inject_Z (dot g y) ^ Z.of_nat m) (pts k) == qfact m * qsum (fun y => sexp (inject_Z (zdot g y)) m) (pts k)) by (rewrite <- qsum_scale; apply qsum_ext; intros y _; unfold sexp; rewrite zdot_dot; field; apply qfact_nz).
    rewrite E1, PS. change (inject_Z 1) with 1. unfold Qdiv at 2. rewrite Qmult_1_l, <- Qmult_assoc. apply Qmult_comp; [reflexivity|]. rewrite (Qmult_comm (qsum _ _)), <- qsum_scale. apply qsum_ext. intros x _. rewrite map_map. unfold Qdiv. apply Qmult_comm.
Qed.
End Lim.
(** The integer points of the dilations of a bounded polyhedron. *)
Lemma nodup_app {A} (l1 l2 : list A) : NoDup l1 -> NoDup l2 -> (forall a, In a l1 -> ~ In a l2) -> NoDup (l1 ++ l2).
Proof. induction 1 as [|a l1 NI N1 IH]; intros N2 D; cbn [app]; [exact N2|]. constructor; [rewrite in_app_iff; intros [H|H]; [contradiction|exact (D a (or_introl eq_refl) H)]|apply IH; [exact N2|intros b Hb; apply D; now right]]. Qed.
Fixpoint box_points (n : nat) (B : Z) : list (list Z) :=
  match n with O => [[]] | S n' => flat_map (fun a => map (cons (Z.of_nat a - B)%Z) (box_points n' B)) (seq 0 (Z.to_nat (2 * B + 1))) end.
Lemma box_points_iff n B x : In x (box_points n B) <-> length x = n /\ forall k, (k < n)%nat -> (- B <= nth k x 0 <= B)%Z.
Proof.
  revert x. induction n as [|n IH]; intros x; cbn [box_points].
  - split; [intros [<-|[]]; split; [reflexivity|intros; lia]|intros [L _]; left; destruct x; [reflexivity|discriminate]].
  - rewrite in_flat_map. split.
    + intros (a & Ha & H). apply in_map_iff in H as (y & <- & Hy). apply in_seq in Ha. apply IH in Hy as [L R]. split; [cbn [length]; lia|]. intros [|k] Hk; cbn [nth]; [lia|]. apply R. lia.
    + intros [L R]. destruct x as [|a x]; [discriminate|]. exists (Z.to_nat (a + B)). pose proof (R O ltac:(lia)) as R0. cbn [nth] in R0. split; [apply in_seq; lia|]. apply in_map_iff. exists x. split; [f_equal; lia|]. apply IH. split; [cbn [length] in L; lia|]. intros k Hk. apply (R (S k)). lia.
Qed.
Lemma box_points_nodup n B : NoDup (box_points n B).
Proof.
  induction n as [|n IH]; cbn [box_points]; [constructor; [intros []|constructor]|]. pose proof (seq_NoDup (Z.to_nat (2 * B + 1)) 0) as SN. induction SN as [|a l NI SN IH2]; cbn [flat_map]; [constructor|].
  apply nodup_app.
  - apply FinFun.Injective_map_NoDup; [intros p q E; now injection E|exact IH].
  - exact IH2.
  - intros x Hx Hy. apply in_map_iff in Hx as (y & <- & _). apply in_flat_map in Hy as (b & Hb & Hy). apply in_map_iff in Hy as (z & E & _). injection E as E _. assert (a = b) by lia. subst b. contradiction.
Qed.
Definition lattice (n : nat) (rows : list (list Z)) (B : Z) (k : Z) : list (list Z) := filter (fun x => forallb (fun c => Qle_bool 0 (slack n c (zpoint x))) (map (dilate_row k) rows)) (box_points n (k * B)).
Lemma lattice_ok n rows B : (forall x, in_polyhedron n rows x -> forall k, (k < n)%nat -> - inject_Z B <= x k <= inject_Z B) -> forall k, (0 < k)%Z -> integer_points n (map (dilate_row k) rows) (lattice n rows B k).
Proof.
  intros HB k Hk. pose proof (inject_pos k Hk) as Pk. split; [apply NoDup_filter, box_points_nodup|]. intros x. unfold lattice. rewrite filter_In, box_points_iff, forallb_forall.
  assert (E : (forall c, In c (map (dilate_row k) rows) -> Qle_bool 0 (slack n c (zpoint x)) = true) <-> in_polyhedron n (map (dilate_row k) rows) (zpoint x)) by (split; intros H c Hc; apply Qle_bool_iff, H, Hc).
  rewrite E. split; [tauto|]. intros [L P]. split; [|exact P]. split; [exact L|]. intros i Hi.
  assert (P' : in_polyhedron n rows (fun j => zpoint x j / inject_Z k)).
  { intros c Hc. specialize (P _ (in_map (dilate_row k) rows c Hc)). rewrite (slack_ext n (dilate_row k c) (zpoint x) (qscale k (fun j => zpoint x j / inject_Z k))) in P by (intros j _; unfold qscale; field; lra). rewrite slack_dilate in P. apply (Qmult_le_l 0 _ _ Pk). rewrite Qmult_0_r. exact P. }
  destruct (HB _ P' i Hi) as [H1 H2]. unfold zpoint in H1, H2.
  assert (H3 : inject_Z (nth i x 0%Z) <= inject_Z (k * B)). { rewrite inject_Z_mult, Qmult_comm. apply (Qmult_le_r _ _ (/ inject_Z k)); [now apply Qinv_lt_0_compat|]. setoid_replace (inject_Z B * inject_Z k * / inject_Z k) with (inject_Z B) by (field; lra). exact H2. }
  assert (H4 : inject_Z (- (k * B)) <= inject_Z (nth i x 0%Z)). { rewrite inject_Z_opp, inject_Z_mult. apply (Qmult_le_r _ _ (/ inject_Z k)); [now apply Qinv_lt_0_compat|]. setoid_replace (- (inject_Z k * inject_Z B) * / inject_Z k) with (- inject_Z B) by (field; lra). exact H1. }
  rewrite <- Zle_Qle in H3, H4. lia.
Qed.
