(** The integral of every power of a linear form over a rational polytope exists. *)
From Coq Require Import QArith Qabs Qfield Lqa Qpower Permutation.
From Verif Require Import Common RatVec RatVecSpec RatVecProofs IntegSpec ZMat Hermite HermiteProofs Det Piped PipedSpec PipedProofs PipedProofs3 ConeSpec CountSpec IntegralSpec IntegMath IntegProofs IntegProofs5 Series DecompProofs ExpSpec ExpProofs ExpProofs2 PerturbSpec ExpProofs CountProofs6 CountProofs7 LimitProofs IntegralProofs3 IntegralProofs4 IntegralProofs5 IntegralProofs6 Valuation ValuationSpec2 ValuationProofs4 ValuationProofs8 ConeMethodSpec ConeMethodProofs.
Open Scope Q_scope.

(** ** Scaling *)
Lemma binomial_scale (s p q : Z) N j : binomial_series (s * p) (s * q) N j == inject_Z s ^ Z.of_nat N * binomial_series p q N j.
Proof.
  unfold binomial_series. destruct (Nat.le_gt_cases j N) as [L|L]; [|rewrite binom_out by exact L; change (inject_Z (0 * _ * _)) with 0; ring].
  rewrite !Z.pow_mul_l. replace N with (N - j + j)%nat at 4 by lia. rewrite Qpow_add, !inject_Z_mult, !inj_pow. ring.
Qed.
Lemma over_scale f (a : Q) F G : (forall j, F j == a * G j) -> forall j, over_factor f F j == a * over_factor f G j.
Proof. intros H. induction j as [|j IH]; cbn [over_factor]; [rewrite H|rewrite H, IH]; unfold Qdiv; ring. Qed.
Lemma overs_scale fs (a : Q) F G : (forall j, F j == a * G j) -> forall j, over_factors fs F j == a * over_factors fs G j.
Proof. intros H. unfold over_factors. induction fs as [|f fs IH]; cbn [fold_right]; [exact H|]. apply over_scale, IH. Qed.
Lemma cc_scale s p q N fs : constant_coefficient (s * p) (s * q) N fs == inject_Z s ^ Z.of_nat N * constant_coefficient p q N fs.
Proof. unfold constant_coefficient. rewrite (overs_scale _ _ _ _ (binomial_scale s p q N)). unfold Qdiv. ring. Qed.
Lemma dot_scaled s l : forall v, dot l (map (Z.mul s) v) = (s * dot l v)%Z.
Proof. induction l as [|a l IH]; intros [|y v]; cbn [map dot]; try ring. rewrite IH. ring. Qed.
Lemma term_scaled N l e s v R : term N l e (map (Z.mul s) v, R) == inject_Z s ^ Z.of_nat N * term N l e (v, R).
Proof. unfold term. cbn [fst snd]. rewrite !dot_scaled. apply cc_scale. Qed.
(** ** Riemann sums of general functions *)
Lemma sum_perm {A} (f : A -> Q) l l' : Permutation l l' -> sum_over f l == sum_over f l'.
Proof. intros P. rewrite !sum_over_qsum. now apply qsum_perm. Qed.
Lemma points_perm n rows p q : integer_points n rows p -> integer_points n rows q -> Permutation p q.
Proof. intros (N1 & I1) (N2 & I2). apply NoDup_Permutation; [exact N1|exact N2|]. intros x. now rewrite I1, I2. Qed.
Lemma integral_tends n rows f I (pts : Z -> Z -> list (list Z)) : (forall D k, clears n rows D -> (0 < k)%Z -> integer_points n (map (dilate_row (k * D)) rows) (pts D k)) ->
  integral_over n rows f I <-> (forall D, clears n rows D -> tends (fun k => riemann_mean n f (k * D) (pts D k)) I).
Proof.
  intros PT. split.
  - intros H D CL eps He. destruct (H D CL eps He) as (K & K0 & HK). exists K. split; [exact K0|]. intros k Hk. destruct (HK k Hk) as (p & P1 & P2). unfold riemann_mean in *. rewrite (sum_perm _ _ _ (points_perm n _ _ _ (PT D k CL ltac:(lia)) P1)). exact P2.
  - intros H D CL eps He. destruct (H D CL eps He) as (K & K0 & HK). exists K. split; [exact K0|]. intros k Hk. exists (pts D k). split; [apply PT; [exact CL|lia]|auto].
Qed.
Lemma qdot_div l k : ~ k == 0 -> forall y, qdot l (map (fun z => inject_Z z / k) y) == inject_Z (dot l y) / k.
Proof.
  intros Hk. induction l as [|a l IH]; intros [|z y]; cbn [map qdot dot]; try (field; exact Hk). rewrite IH, inject_Z_plus, inject_Z_mult. field. exact Hk.
Qed.
(** The mean of <l,x>^m on the lattice 1/(kD) *)
Lemma mean_form n l m k D points : (0 < k)%Z -> (0 < D)%Z -> riemann_mean n (fun x => qdot l x ^ Z.of_nat m) (k * D) points == riemann_sum n l m k points / inject_Z D ^ Z.of_nat (n + m).
Proof.
  intros Hk HD. pose proof (inject_pos k Hk) as Pk. pose proof (inject_pos D HD) as PD. rewrite riemann_scaled by exact Hk. unfold riemann_mean. rewrite sum_over_qsum.
  assert (K1 : forall j : nat, ~ inject_Z k ^ Z.of_nat j == 0) by (intros j; apply Qpower_not_0; lra). assert (K2 : forall j : nat, ~ inject_Z D ^ Z.of_nat j == 0) by (intros j; apply Qpower_not_0; lra).
  rewrite (qsum_ext _ (fun y => / (inject_Z k ^ Z.of_nat m * inject_Z D ^ Z.of_nat m) * inject_Z (dot l y) ^ Z.of_nat m)).
  - rewrite qsum_scale, inj_pow, inject_Z_mult, Qmult_power, !Qpow_add. change (inject_Z 1) with 1. field. auto.
  - intros y _. rewrite qdot_div by (rewrite inject_Z_mult; intros E; destruct (Qmult_integral _ _ E); lra). unfold Qdiv. rewrite Qmult_power, Qinv_power, inject_Z_mult, Qmult_power. ring.
Qed.
Section Forms.
Context (n : nat) (rows : list (list Z)) (cones : list vcone) (T : nat -> vcone -> list vcone).
Context (Hn : n <> O) (LR : forall c, In c rows -> length c = S n) (BD : bounded n rows).
Context (TC : tangent_cones n rows cones) (TR : triangulates_cones n T cones).
Definition cut (D : Z) : list (list Z * list (list Z)) := flat_map (fun c => map (pair (big n D c)) (pieces n T vc_vertex c)) cones.
Definition total (D : Z) (N : nat) (l g : list Z) : Q := qsum (fun c => weight n c * term N l g c) (cut D).
Lemma total_scale D s N l g : clears n rows D -> (0 < s)%Z -> total (s * D) N l g == inject_Z s ^ Z.of_nat N * total D N l g.
Proof.
  intros CL Hs. unfold total, cut. assert (G : forall cs, (forall c, In c cs -> In c cones) -> qsum (fun c => weight n c * term N l g c) (flat_map (fun c => map (pair (big n (s * D) c)) (pieces n T vc_vertex c)) cs) == inject_Z s ^ Z.of_nat N * qsum (fun c => weight n c * term N l g c) (flat_map (fun c => map (pair (big n D c)) (pieces n T vc_vertex c)) cs)).
  { induction cs as [|c cs IH]; intros H; [cbn; ring|]. cbn [flat_map]. rewrite !qsum_app, IH by (intros d Hd; apply H; now right). rewrite !qsum_map, (big_mul n rows cones TC D s c CL (clears_mul n rows D s Hs CL) (H c (or_introl eq_refl))).
    rewrite Qmult_plus_distr_r. apply Qplus_comp; [|reflexivity]. rewrite <- qsum_scale. apply qsum_ext. intros R _. rewrite term_scaled. unfold weight. cbn [snd]. ring. }
  apply G. auto.
Qed.
Lemma cut_direction : exists g, length g = n /\ forall D c r, clears n rows D -> In c (cut D) -> In r (snd c) -> dot g r <> 0%Z.
Proof.
  destruct (generic_exists n (flat_map (fun R => R) (flat_map (pieces n T vc_vertex) cones))) as (g & Lg & G).
  { intros r Hr. apply in_flat_map in Hr as (R & HR & Hr). apply in_flat_map in HR as (c & Hc & HR). destruct (TR c (vc_vertex c) Hc) as (_ & TR1 & _). destruct (TR1 R HR) as ([L1 L2] & LI). split; [rewrite Forall_forall in L2; auto|]. exact (row_nonzero n ltac:(lia) R r L1 L2 LI Hr). }
  exists g. split; [exact Lg|]. intros D c r _ Hc Hr. rewrite <- zdot_dot. apply G. unfold cut in Hc. apply in_flat_map in Hc as (c0 & Hc0 & Hc). apply in_map_iff in Hc as (R & <- & HR). cbn [snd] in Hr. apply in_flat_map. exists R. split; [apply in_flat_map; eauto|exact Hr].
Qed.
(** The integrals, as one function of the form *)
Lemma forms_exist : exists H : nat -> list Z -> Q, (forall l, H 0%nat l == H 0%nat []) /\ forall l m D, length l = n -> clears n rows D ->
  IntegralSpec.is_integral n (map (dilate_row D) rows) l m (inject_Z D ^ Z.of_nat (n + m) * H m l).
Proof.
  destruct cut_direction as (g & Lg & GG). destruct (clears_exists n rows cones TC) as (D0 & C0). pose proof (inject_pos D0 (proj1 C0)) as P0.
  assert (M : forall l m D, length l = n -> clears n rows D -> IntegralSpec.is_integral n (map (dilate_row D) rows) l m (inject_Z D ^ Z.of_nat (n + m) * (head n m * (total D0 (n + m) l g / inject_Z D0 ^ Z.of_nat (n + m))))).
  { intros l m D Ll CL. pose proof (inject_pos D (proj1 CL)) as PD. destruct (rowsD_bounded n rows BD D CL) as (B & HB). apply (tends_integral n _ Hn B l m _ HB).
    apply (tends_eq _ (head n m * total D (n + m) l g)).
    - assert (E : inject_Z D0 ^ Z.of_nat (n + m) * total D (n + m) l g == inject_Z D ^ Z.of_nat (n + m) * total D0 (n + m) l g) by (rewrite <- (total_scale D D0 (n + m) l g CL (proj1 C0)), <- (total_scale D0 D (n + m) l g C0 (proj1 CL)), Z.mul_comm; reflexivity).
      assert (N0 : ~ inject_Z D0 ^ Z.of_nat (n + m) == 0) by (apply Qpower_not_0; lra).
      setoid_replace (total D (n + m) l g) with (inject_Z D ^ Z.of_nat (n + m) * total D0 (n + m) l g / inject_Z D0 ^ Z.of_nat (n + m)) by (rewrite <- E; field; exact N0). field. exact N0.
    - pose proof (generic_direction n (rowsD rows D) (vsD n cones D) (triD n cones T vc_vertex D) ltac:(lia) (rowsD_len n rows LR D) (vsD_len n cones D) (vsD_all n rows cones TC D CL) (vsD_splits n rows cones T vc_vertex TC TR D CL)
        (lattice n (rowsD rows D) B) (lattice_ok n (rowsD rows D) B HB) l g m Ll Lg) as GD. rewrite (conesD n rows cones T vc_vertex TC D CL) in GD. apply GD. intros c r Hc Hr. right. apply (GG D c r CL Hc Hr). }
  exists (fun m l => match m with O => head n 0 * (total D0 (n + 0) (repeat 0%Z n) g / inject_Z D0 ^ Z.of_nat (n + 0)) | S _ => head n m * (total D0 (n + m) l g / inject_Z D0 ^ Z.of_nat (n + m)) end). split; [reflexivity|].
  intros l [|m] D Ll CL; [|now apply M]. intros eps He. destruct (M (repeat 0%Z n) 0%nat D (repeat_length _ _) CL eps He) as (K & K0 & HK). exists K. split; [exact K0|]. intros k Hk. destruct (HK k Hk) as (p & P1 & P2). exists p. split; [exact P1|].
  unfold riemann_sum in *. exact P2.
Qed.
Lemma some_points : exists pts : Z -> Z -> list (list Z), forall D k, clears n rows D -> (0 < k)%Z -> integer_points n (map (dilate_row (k * D)) rows) (pts D k).
Proof.
  destruct BD as (B & HB). exists (fun D k => lattice n rows B (k * D)). intros D k [D0 _] Hk. apply lattice_ok; [exact HB|nia].
Qed.
Lemma form_over l m I : (forall D, clears n rows D -> IntegralSpec.is_integral n (map (dilate_row D) rows) l m (inject_Z D ^ Z.of_nat (n + m) * I)) -> integral_over n rows (fun x => qdot l x ^ Z.of_nat m) I.
Proof.
  intros H. destruct some_points as (pts & PT). apply (integral_tends n rows _ I pts PT). intros D CL. pose proof (inject_pos D (proj1 CL)) as PD. assert (N0 : ~ inject_Z D ^ Z.of_nat (n + m) == 0) by (apply Qpower_not_0; lra).
  apply (tends_eq _ (/ inject_Z D ^ Z.of_nat (n + m) * (inject_Z D ^ Z.of_nat (n + m) * I))); [field; exact N0|].
  apply (tends_ext (fun k => / inject_Z D ^ Z.of_nat (n + m) * riemann_sum n l m k (pts D k))); [exists 1%Z; intros k Hk; rewrite (mean_form n l m k D (pts D k)) by (try apply CL; lia); unfold Qdiv; ring|].
  apply tends_scale. intros eps He. destruct (H D CL eps He) as (K & K0 & HK). exists K. split; [exact K0|]. intros k Hk. destruct (HK k Hk) as (p & P1 & P2). rewrite dilate_rows in P1. unfold riemann_sum in *. rewrite (sum_perm _ _ _ (points_perm n _ _ _ (PT D k CL ltac:(lia)) P1)). exact P2.
Qed.
Lemma over_ext f g I : (forall x, length x = n -> f x == g x) -> integral_over n rows f I -> integral_over n rows g I.
Proof.
  intros E H D CL eps He. destruct (H D CL eps He) as (K & K0 & HK). exists K. split; [exact K0|]. intros k Hk. destruct (HK k Hk) as (p & P1 & P2). exists p. split; [exact P1|]. unfold riemann_mean in *. rewrite !sum_over_qsum in *.
  rewrite <- (qsum_ext (fun y => f (map (fun z => inject_Z z / inject_Z (k * D)) y))); [exact P2|]. intros y Hy. apply E. rewrite map_length. now apply P1 in Hy.
Qed.
Lemma over_eq f I J : I == J -> integral_over n rows f I -> integral_over n rows f J.
Proof. intros E H D CL eps He. destruct (H D CL eps He) as (K & K0 & HK). exists K. split; [exact K0|]. intros k Hk. destruct (HK k Hk) as (p & P1 & P2). exists p. split; [exact P1|]. now rewrite <- E. Qed.
Lemma over_sum {A} (a : A -> Q) (f : A -> list Q -> Q) (I : A -> Q) ts : (forall t, In t ts -> integral_over n rows (f t) (I t)) -> integral_over n rows (fun x => qsum (fun t => a t * f t x) ts) (qsum (fun t => a t * I t) ts).
Proof.
  intros H. destruct some_points as (pts & PT). apply (integral_tends n rows _ _ pts PT). intros D CL.
  apply (tends_ext (fun k => qsum (fun t => a t * riemann_mean n (f t) (k * D) (pts D k)) ts)).
  - exists 1%Z. intros k Hk. unfold riemann_mean. rewrite (qsum_ext _ (fun t => / inject_Z ((k * D) ^ Z.of_nat n) * qsum (fun y => a t * f t (map (fun z => inject_Z z / inject_Z (k * D)) y)) (pts D k))) by (intros t _; rewrite sum_over_qsum, qsum_scale; unfold Qdiv; ring).
    rewrite qsum_scale, sum_over_qsum. unfold Qdiv. rewrite Qmult_comm. apply Qmult_comp; [|reflexivity]. induction ts as [|t ts IH]; cbn [qsum]; [rewrite InterpProofs2.qsum_zero by (intros; reflexivity); reflexivity|]. rewrite IH by (intros; apply H; now right). rewrite qsum_plus. reflexivity.
  - apply tends_qsum. intros t Ht. apply tends_scale. exact (proj1 (integral_tends n rows _ _ pts PT) (H t Ht) D CL).
Qed.
Lemma over_unique D f I J : clears n rows D -> integral_over n rows f I -> integral_over n rows f J -> I == J.
Proof.
  intros CL HI HJ. destruct some_points as (pts & PT). exact (tends_unique _ _ _ (proj1 (integral_tends n rows _ _ pts PT) HI D CL) (proj1 (integral_tends n rows _ _ pts PT) HJ D CL)).
Qed.
End Forms.
