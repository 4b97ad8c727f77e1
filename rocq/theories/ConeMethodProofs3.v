(** The volume by Lawrence's formula. *)
From Coq Require Import QArith Qabs Qfield Lqa Qpower Permutation.
From Verif Require Import Common IntegProofs4 Integ Rational RationalSpec RatVec RatVecSpec RatVecProofs IntegSpec ZMat Hermite HermiteProofs Det DetProofs Piped PipedSpec PipedProofs PipedProofs3 ConeSpec CountSpec IntegralSpec IntegMath IntegProofs IntegProofs5 Series DecompProofs ExpSpec ExpProofs ExpProofs2 Perturb PerturbSpec PerturbProofs3 PerturbProofs4 PerturbProofs6 CountProofs6 CountProofs7 LimitProofs IntegralProofs3 IntegralProofs4 IntegralProofs5 IntegralProofs6 Valuation ValuationSpec2 ValuationProofs2 ValuationProofs3 ValuationProofs4 ValuationProofs5 ValuationProofs8 ConeMethodSpec ConeMethodProofs ConeMethodProofs2.
Open Scope Z_scope.

Definition spot (v : rvec) (n : nat) : list Q := map (coord v) (seq 0 n).
(** The random vector of try j *)
Definition draw (n : nat) (rs : nat -> nat) (j : nat) : list Z := map (fun i => Z.of_nat (rs (j * n + i)%nat) mod 10000) (seq 0 n).
Lemma draw_shift n rs j : draw n (fun i => rs (n + i)%nat) j = draw n rs (S j).
Proof. unfold draw. apply map_ext. intros i. cbn [Nat.mul]. rewrite Nat.add_assoc. reflexivity. Qed.
Definition piece_ok (n : nat) (k : vcone) : Prop := vertex_ok n (vc_vertex k) /\ vc_coef k = 1 /\ length (vc_rays k) = n /\ Forall (fun r => length r = n) (vc_rays k).
Definition share (n : nat) (g : list Z) (k : vcone) : Q :=
  (inject_Z (Z.abs (det n (ent (vc_rays k)))) * qdot g (spot (vc_vertex k) n) ^ Z.of_nat n / (sign n * inject_Z (product (map (dot g) (vc_rays k)))))%Q.
Lemma qdot_frac g s : ~ (s == 0)%Q -> forall w p, length w = length p -> (forall i, (i < length w)%nat -> (inject_Z (nth i w 0%Z) == s * nth i p 0)%Q) -> (inject_Z (dot g w) == s * qdot g p)%Q.
Proof.
  intros Hs. induction g as [|a g IH]; intros [|y w] [|q p] L H; cbn [dot qdot length] in *; try discriminate; try (change (inject_Z 0) with 0%Q; ring). rewrite inject_Z_plus, inject_Z_mult, (IH w p) by (try lia; intros i Hi; exact (H (S i) ltac:(lia))). pose proof (H 0%nat ltac:(lia)) as H0. cbn [nth] in H0. rewrite H0. ring.
Qed.
Lemma product_zero l : product l = 0 -> In 0 l.
Proof. induction l as [|x l IH]; cbn [product fold_right]; [discriminate|]. fold (product l). intros E. apply Z.mul_eq_0 in E as [E|E]; [now left|right; auto]. Qed.
Lemma lawrence_ok n g : n <> O -> length g = n -> forall tri ans, Forall (piece_ok n) tri -> lowest_terms ans ->
  (exists v, lawrence_volume n g tri ans = Ok (Some v) /\ lowest_terms v /\ (value v == value ans + qsum (share n g) tri)%Q /\ forall k r, In k tri -> In r (vc_rays k) -> dot g r <> 0) \/
  (lawrence_volume n g tri ans = Ok None /\ exists k r, In k tri /\ In r (vc_rays k) /\ dot g r = 0).
Proof.
  intros Hn Lg. induction tri as [|k tri IH]; intros ans F LA.
  - left. exists ans. split; [reflexivity|]. split; [exact LA|]. split; [cbn [qsum]; ring|]. intros k r [].
  - destruct (Forall_inv F) as ((VI & VD) & CK & LK & FK). cbn [lawrence_volume]. destruct (scale_ok positive good_positive (vc_vertex k) VI) as (v' & w & s & E & I' & E1 & E2 & EW & ES & EC). rewrite VD in E. rewrite E. cbn [bind].
    rewrite LK, Nat.ltb_irrefl, Nat.eqb_refl. cbn [negb]. rewrite (existsb_false (fun r => (length r <? n)%nat)) by (eapply Forall_impl; [|exact FK]; cbv beta; intros r ->; apply Nat.ltb_irrefl).
    rewrite (fold_mul_product (fun r => -1 * dotz g r 0)). rewrite (map_ext (fun r => -1 * dotz g r 0) (fun r => - dot g r)) by (intros r; rewrite dotz_dot; ring). rewrite dotz_dot.
    destruct I' as (I1 & I2 & I3). destruct (I3 EC) as ((C1 & C2 & C3 & C4 & C5) & C6). assert (D' : dim v' = n) by (unfold dim in *; now rewrite E1).
    assert (SP : 0 < s) by (rewrite ES; apply C6; [exact I2|lia]). pose proof (inject_pos s SP) as SQ.
    assert (WV : (inject_Z (dot w g) == inject_Z s * qdot g (spot (vc_vertex k) n))%Q).
    { rewrite dot_comm. apply qdot_frac; [lra| |].
      - rewrite EW, C1, D'. unfold spot. now rewrite map_length, seq_length.
      - rewrite EW, C1, D'. intros i Hi. unfold spot. rewrite nth_map_seq by exact Hi. specialize (C3 i ltac:(lia)). rewrite <- ES in C3. unfold coord.
        assert (DE : den_at v' i = den_at (vc_vertex k) i) by (unfold den_at; now rewrite E2). assert (NE : num_at v' i = num_at (vc_vertex k) i) by (unfold num_at; now rewrite E1). rewrite DE, NE in C3.
        assert (P : 0 < den_at (vc_vertex k) i) by (rewrite <- DE; apply (Forall_den positive v' i); [unfold positive; lia|exact I2]). pose proof (inject_pos _ P). apply (f_equal inject_Z) in C3. rewrite !inject_Z_mult in C3. apply (Qmult_inj_r _ _ (inject_Z (den_at (vc_vertex k) i))); [lra|]. rewrite C3. field. lra. }
    assert (PN : s ^ Z.of_nat n <> 0) by (apply kpow_nz; lia). set (P := product (map (fun r => - dot g r) (vc_rays k))) in *.
    assert (PE : (inject_Z P == sign n * inject_Z (product (map (dot g) (vc_rays k))))%Q) by (unfold P; rewrite (product_neg (dot g)), LK; reflexivity).
    destruct (Z.eqb_spec (s ^ Z.of_nat n * P) 0) as [E0|E0].
    + right. split; [reflexivity|]. apply Z.mul_eq_0 in E0 as [E0|E0]; [contradiction|]. apply product_zero, in_map_iff in E0 as (r & E0 & Hr). exists k, r. split; [now left|]. split; [exact Hr|lia].
    + match goal with |- context [rat_add_zz ans ?a ?b] => destruct (rat_add_zz_ok ans a b LA E0) as (v & V1 & V2 & V3) end. rewrite V1. cbn [bind].
      assert (NR : forall r, In r (vc_rays k) -> dot g r <> 0). { intros r Hr E'. apply E0. assert (Z0 : P = 0); [|rewrite Z0; ring]. unfold P. clear -Hr E'. induction (vc_rays k) as [|x l IHl]; [destruct Hr|]. cbn [map product fold_right]. destruct Hr as [->|Hr]; [rewrite E'; reflexivity|]. fold (product (map (fun r => - dot g r) l)). rewrite (IHl Hr). ring. }
      assert (SH : (inject_Z (dot w g ^ Z.of_nat n * (Z.abs (det n (fun row col => nth row (nth col (vc_rays k) []) 0%Z)) * vc_coef k)) / inject_Z (s ^ Z.of_nat n * P) == share n g k)%Q).
      { rewrite CK, Z.mul_1_r, !inject_Z_mult, !inj_pow, WV, PE, Qmult_power. unfold share.
        replace (det n (ent (vc_rays k))) with (det n (fun row col => nth row (nth col (vc_rays k) []) 0)) by (rewrite <- (det_tr n (ent (vc_rays k))); apply det_ext; intros i j _ _; reflexivity).
        assert (A1 : ~ (inject_Z s ^ Z.of_nat n == 0)%Q) by (apply Qpower_not_0; lra). unfold Qdiv. rewrite (Qinv_mult_distr (inject_Z s ^ Z.of_nat n)). generalize (/ (sign n * inject_Z (product (map (dot g) (vc_rays k)))))%Q. intros iq. field. exact A1. }
      rewrite SH in V3. destruct (IH v (Forall_inv_tail F) V2) as [(u & U1 & U2 & U3 & U4)|(U1 & k' & r & U2 & U3 & U4)].
      * left. exists u. split; [exact U1|]. split; [exact U2|]. split; [rewrite U3, V3; cbn [qsum]; ring|]. intros k' r [<-|Hk'] Hr; [auto|exact (U4 k' r Hk' Hr)].
      * right. split; [exact U1|]. exists k', r. split; [now right|auto].
Qed.
(** ** The retry loop *)
Lemma tries_ok n tri : n <> O -> Forall (piece_ok n) tri -> forall fuel rs,
  (exists v j, (j < fuel)%nat /\ lawrence_tries fuel n rs tri = Ok v /\ lowest_terms v /\ (value v == qsum (share n (draw n rs j)) tri)%Q /\ forall k r, In k tri -> In r (vc_rays k) -> dot (draw n rs j) r <> 0) \/
  (lawrence_tries fuel n rs tri = Err OutOfFuel /\ forall j, (j < fuel)%nat -> exists k r, In k tri /\ In r (vc_rays k) /\ dot (draw n rs j) r = 0).
Proof.
  intros Hn F. induction fuel as [|fuel IH]; intros rs; cbn [lawrence_tries].
  - right. split; [reflexivity|intros j Hj; lia].
  - assert (D0 : map (fun i => Z.of_nat (rs i) mod 10000) (seq 0 n) = draw n rs 0) by reflexivity. rewrite D0. assert (L01 : lowest_terms (mkRat 0 1)) by (split; cbn; lia || reflexivity).
    destruct (lawrence_ok n (draw n rs 0) Hn ltac:(unfold draw; now rewrite map_length, seq_length) tri (mkRat 0 1) F L01) as [(v & V1 & V2 & V3 & V4)|(V1 & V2)]; rewrite V1; cbn [bind].
    + left. exists v, 0%nat. split; [lia|]. split; [reflexivity|]. split; [exact V2|]. split; [rewrite V3; change (value (mkRat 0 1)) with (0#1)%Q; ring|exact V4].
    + destruct (IH (fun i => rs (n + i)%nat)) as [(v & j & J1 & J2 & J3 & J4 & J5)|(J1 & J2)].
      * left. exists v, (S j). rewrite draw_shift in J4. split; [lia|]. split; [exact J2|]. split; [exact J3|]. split; [exact J4|]. intros k r Hk Hr. rewrite <- draw_shift. eauto.
      * right. split; [exact J1|]. intros [|j] Hj; [exact V2|]. destruct (J2 j ltac:(lia)) as (k & r & A & B & C). exists k, r. rewrite <- draw_shift. auto.
Qed.
Section Volume.
Context (n : nat) (rows : list (list Z)) (cones : list vcone) (T : nat -> vcone -> list vcone).
Context (Hn : n <> O) (LR : forall c, In c rows -> length c = S n) (BD : bounded n rows).
Context (TC : tangent_cones n rows cones) (TR : triangulates_cones n T cones).
Lemma piece_in c k : In c cones -> In k (T n c) -> vc_vertex k = vc_vertex c /\ piece_ok n k /\ lin_indep n (vc_rays k) /\ In (vc_rays k) (pieces n T vc_vertex c).
Proof.
  intros Hc Hk. destruct (TR c (vc_vertex c) Hc) as (F & TR1 & _). destruct c as [v R co]. cbn [vc_vertex vc_rays vc_coef] in *. rewrite Forall_forall in F. destruct (F k Hk) as [F1 F2]. destruct (TR1 (vc_rays k) (in_map vc_rays _ _ Hk)) as ([L1 L2] & LI).
  destruct (proj2 TC _ Hc) as (RP & C1 & _). cbn [vc_vertex vc_coef] in RP, C1. split; [exact F1|]. split; [split; [rewrite F1; now apply point_ok|]; split; [congruence|auto]|]. split; [exact LI|]. unfold pieces. cbn [vc_rays vc_vertex vc_coef]. now apply in_map.
Qed.
Lemma share_cut g D : clears n rows D -> length g = n ->
  (inject_Z D ^ Z.of_nat n * (qsum (share n g) (flat_map (T n) cones) / inject_Z (zfact n)) == generic_sum n 0 g (cut n cones T D))%Q.
Proof.
  intros CL Lg. pose proof (inject_pos D (proj1 CL)) as PD. unfold generic_sum. rewrite Nat.add_0_r. change (qfact 0) with 1%Q. rewrite <- zfact_q. set (N := inject_Z (zfact n)).
  assert (E : (inject_Z D ^ Z.of_nat n * qsum (share n g) (flat_map (T n) cones) == sign n * qsum (fun c => inject_Z (Z.abs (det n (ent (snd c)))) * inject_Z (dot g (fst c)) ^ Z.of_nat n / inject_Z (zprodl (map (dot g) (snd c)))) (cut n cones T D))%Q).
  { unfold cut. assert (G : forall cs, (forall c, In c cs -> In c cones) -> (inject_Z D ^ Z.of_nat n * qsum (share n g) (flat_map (T n) cs) == sign n * qsum (fun c => inject_Z (Z.abs (det n (ent (snd c)))) * inject_Z (dot g (fst c)) ^ Z.of_nat n / inject_Z (zprodl (map (dot g) (snd c)))) (flat_map (fun c => map (pair (big n D c)) (pieces n T vc_vertex c)) cs))%Q); [|now apply G].
    induction cs as [|c cs IH]; intros H; [cbn; ring|]. cbn [flat_map]. rewrite !qsum_app, !Qmult_plus_distr_r, IH by (intros d Hd; apply H; now right). apply Qplus_comp; [|reflexivity]. pose proof (H c (or_introl eq_refl)) as Hc.
    unfold pieces. rewrite !qsum_map. assert (EC : mkVC (vc_vertex c) (vc_rays c) (vc_coef c) = c) by (now destruct c). rewrite EC, <- (qsum_scale (inject_Z D ^ Z.of_nat n)). etransitivity; [|apply (qsum_scale (sign n))]. apply qsum_ext. intros k Hk. cbn [fst snd]. destruct (piece_in c k Hc Hk) as (E1 & _). unfold share. rewrite E1. change zprodl with product.
    assert (BV : (inject_Z (dot g (big n D c)) == inject_Z D * qdot g (spot (vc_vertex c) n))%Q).
    { apply qdot_frac; [lra|unfold spot; now rewrite big_len, map_length, seq_length|]. rewrite big_len. intros i Hi. unfold spot. rewrite nth_map_seq by exact Hi. symmetry. apply (big_ok n rows cones TC D c CL Hc i Hi). }
    rewrite BV, Qmult_power. unfold Qdiv. rewrite Qinv_mult_distr. generalize (/ inject_Z (product (map (dot g) (vc_rays k))))%Q. intros iq. unfold sign. destruct (Nat.odd n); [change (/ (-1))%Q with (-1)%Q|change (/ 1)%Q with 1%Q]; ring. }
  unfold Qdiv at 1. rewrite Qmult_assoc, E. unfold Qdiv. ring.
Qed.
Lemma volume_run tri fuel rs : Permutation tri (flat_map (T n) cones) ->
  (exists v, volume_lawrence fuel n rs tri = Ok v /\ lowest_terms v /\ forall D l, clears n rows D -> IntegralSpec.is_integral n (map (dilate_row D) rows) l 0 (inject_Z D ^ Z.of_nat n * value v)) \/
  (volume_lawrence fuel n rs tri = Err OutOfFuel /\ forall j, (j < fuel)%nat -> exists k r, In k tri /\ In r (vc_rays k) /\ dot (draw n rs j) r = 0).
Proof.
  intros P. assert (IN : forall k, In k tri -> exists c, In c cones /\ In k (T n c)) by (intros k Hk; apply (Permutation_in _ P), in_flat_map in Hk; exact Hk).
  assert (F : Forall (piece_ok n) tri) by (apply Forall_forall; intros k Hk; destruct (IN k Hk) as (c & Hc & Hk'); apply (piece_in c k Hc Hk')).
  unfold volume_lawrence. destruct (tries_ok n tri Hn F fuel rs) as [(v & j & _ & V1 & V2 & V3 & V4)|(V1 & V2)]; rewrite V1; cbn [bind]; [left|right; split; [reflexivity|exact V2]].
  pose proof (zfact_pos n) as ZP. rewrite factorial_ok, Z.mul_1_r. destruct (rat_div_z_ok v (zfact n) V2 ltac:(lia)) as [R1 R2]. unfold rat_div_z in R1, R2. eexists. split; [reflexivity|]. split; [exact R1|].
  intros D l CL. set (g := draw n rs j) in *. assert (Lg : length g = n) by (unfold g, draw; now rewrite map_length, seq_length).
  assert (G : forall c r, In c (cut n cones T D) -> In r (snd c) -> dot g r <> 0).
  { intros c r Hc Hr. unfold cut in Hc. apply in_flat_map in Hc as (c0 & Hc0 & Hc). apply in_map_iff in Hc as (R & <- & HR). cbn [snd] in Hr. unfold pieces in HR. apply in_map_iff in HR as (k & <- & Hk). apply (V4 k r); [|exact Hr]. apply (Permutation_in _ (Permutation_sym P)), in_flat_map. exists c0. split; [exact Hc0|]. now destruct c0. }
  destruct (rowsD_bounded n rows BD D CL) as (B & HB).
  assert (I : IntegralSpec.is_integral n (map (dilate_row D) rows) g 0 (generic_sum n 0 g (cut n cones T D))).
  { apply (tends_integral n _ Hn B g 0 _ HB).
    pose proof (generic_limit n (rowsD rows D) (vsD n cones D) (triD n cones T vc_vertex D) ltac:(lia) (rowsD_len n rows LR D) (vsD_len n cones D) (vsD_all n rows cones TC D CL) (vsD_splits n rows cones T vc_vertex TC TR D CL) (lattice n (rowsD rows D) B) (lattice_ok n (rowsD rows D) B HB) g 0) as GL.
    rewrite (conesD n rows cones T vc_vertex TC D CL) in GL. apply GL. intros v0 R r Hv HR Hr. apply (G (v0, R) r); [|exact Hr]. unfold cut. rewrite <- (conesD n rows cones T vc_vertex TC D CL). apply in_flat_map. exists v0. split; [exact Hv|now apply in_map]. }
  assert (EV : (generic_sum n 0 g (cut n cones T D) == inject_Z D ^ Z.of_nat n * value (canonicalize (mkRat (num v) (den v * zfact n))))%Q).
  { rewrite <- (share_cut g D CL Lg), R2, V3, (qsum_perm _ _ _ P). reflexivity. }
  intros eps He. destruct (I eps He) as (K & K0 & HK). exists K. split; [exact K0|]. intros k Hk. destruct (HK k Hk) as (p & P1 & P2). exists p. split; [exact P1|]. rewrite <- EV. exact P2.
Qed.
End Volume.
